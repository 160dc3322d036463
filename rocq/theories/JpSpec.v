(** What the Jones-Pewsey theorems assume of scipy. *)
From Verif Require Import Prelude IntSpec CircleSpec.

(** Where [lpmv] returns a finite value for z >= 1 it is the Legendre function P_nu(z), here given
    by Laplace's integral: 2 pi P_nu(z) is the integral of (z + sqrt(z^2 - 1) cos t)^nu over one turn. *)
Definition is_lpmv (lpmv : R -> R -> fl) : Prop :=
  forall nu z v, 1 <= z -> lpmv nu z = Fin v ->
    integral (fun t => Rpower (z + sqrt (z ^ 2 - 1) * cos t) nu) 0 (2 * PI) (2 * PI * v).
(** The quadrature is exact for [f] over [a, b]. *)
Definition quad_exact (quad : (R -> R) -> R -> R -> R) (f : R -> R) (a b : R) : Prop := integral f a b (quad f a b).
(** The public pdf depends only on how far an angle is from [mu], and never grows with that distance. *)
Definition unimodal_about (pdf : R -> fl) (mu : R) : Prop :=
  exists f : R -> R, (forall x, pdf x = Fin (f x)) /\
    forall x y dx dy, is_arc_dist x mu dx -> is_arc_dist y mu dy -> dx <= dy -> f y <= f x.
(** The trigonometric polynomial with cosine coefficients a_1 .. a_N, as a function of period 2 pi and mass 1. *)
Definition cos_series (a : nat -> R) (N : nat) (t : R) : R :=
  (1 + 2 * Rsum (map (fun n => a n * cos (INR n * t)) (seq 1 N))) / (2 * PI).
(** The Riemann sum of [g] over one turn with 4096 points starting at - pi. *)
Definition riemann_turn (g : R -> R) : R :=
  2 * PI / 4096 * Rsum (map (fun k => g (- PI + INR k * (2 * PI / 4096))) (seq 0 (Z.to_nat 4096))).
(** [F], a cdf returning the angle-valued function's values, is crossed by [q] within [w] of [th], or
    takes a value within [e] of [q] there. *)
Definition inverts (F : R -> fl) (q th e w : R) : Prop :=
  0 <= th <= 2 * PI /\
  ((exists v, F th = Fin v /\ Rabs (v - q) <= e) \/
   exists lo hi vl vh, 0 <= lo /\ hi <= 2 * PI /\ lo <= th <= hi /\ hi - lo <= w /\ F lo = Fin vl /\ F hi = Fin vh /\ vl <= q + e /\ q - e <= vh).
