(** What users of the Kato-Jones distribution rely on. *)
From Verif Require Import Prelude EmModel IntSpec CircleSpec DistSpec.

(** Documented parameter range: 0 <= mu, lam < 2 pi, 0 <= gamma, rho < 1 and
    (rho cos lam - gamma)^2 + (rho sin lam)^2 <= (1 - gamma)^2. *)
Definition kj_documented (c : kj) : Prop :=
  0 <= kj_mu c < 2 * PI /\ 0 <= kj_gamma c < 1 /\ 0 <= kj_rho c < 1 /\ 0 <= kj_lam c < 2 * PI /\
  (kj_rho c * cos (kj_lam c) - kj_gamma c) ^ 2 + (kj_rho c * sin (kj_lam c)) ^ 2 <= (1 - kj_gamma c) ^ 2.

(** The p-th trigonometric moment of weighted angles (angle, weight), about [m]. *)
Definition sample_moment (s : list (R * R)) (p m : R) : R * R :=
  (Rsum (map (fun x => snd x * cos (p * (fst x - m))) s) / Rsum (map snd s),
   Rsum (map (fun x => snd x * sin (p * (fst x - m))) s) / Rsum (map snd s)).
