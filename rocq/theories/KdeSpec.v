(** Kernel density estimate on the circle with Fisher's quartic kernel. *)
From Verif Require Import Prelude.

(** The angle between two directions, in [0, pi]. *)
Definition gap (x a : R) : R := acos (cos (x - a)).
(** The quartic kernel of bandwidth [h] at a distance [u] >= 0. *)
Definition quartic (h u : R) : R := if Rltb u h then 15 / 16 * (1 - (u / h) ^ 2) ^ 2 / h else 0.
(** The estimated density at x: the mean over the sample of the kernel at the angle to x. *)
Definition estimate (h : R) (alpha : list R) (x : R) : R := Rsum (map (fun a => quartic h (gap x a)) alpha) / INR (length alpha).
