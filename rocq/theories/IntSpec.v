(** Integrals over an interval, from the standard library's Riemann integral. *)
From Verif Require Import Prelude.
From Coq Require Export RiemannInt.

(** [f] is integrable over [a, b] and its integral is [v]. *)
Definition integral (f : R -> R) (a b v : R) : Prop :=
  exists pr : Riemann_integrable f a b, RiemannInt pr = v.

(** [f] is a probability density on the circle, one turn being [0, 2 pi]. *)
Definition density (f : R -> R) : Prop :=
  (forall x, 0 <= f x) /\ integral f 0 (2 * PI) 1.

(** The order-[n] modified Bessel functions of the first kind with n = 0, 1:
    2 pi I_n(k) is the integral of cos(n t) exp(k cos t) over one turn. *)
Definition is_i0 (i0 : R -> R) : Prop :=
  forall k, integral (fun t => exp (k * cos t)) 0 (2 * PI) (2 * PI * i0 k).
Definition is_i1 (i1 : R -> R) : Prop :=
  forall k, integral (fun t => cos t * exp (k * cos t)) 0 (2 * PI) (2 * PI * i1 k).
