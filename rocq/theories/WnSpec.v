(** What is assumed of the normal distribution function. *)
From Verif Require Import Prelude IntSpec CircleSpec.

(** [Phi] is the standard normal distribution function. *)
Definition is_ndtr (Phi : R -> R) : Prop :=
  (forall z, derivable_pt_lim Phi z (/ sqrt (2 * PI) * exp (- (1 / 2) * z ^ 2))) /\
  (forall e, 0 < e -> exists M, forall z, M <= z -> Rabs (Phi z - 1) < e /\ Rabs (Phi (- z)) < e).

(** The mass that the distribution function [D] gives to the copies of [0, x] shifted by up to
    [N] turns in either direction. *)
Definition turns (N : nat) : list Z := map (fun i => (Z.of_nat i - Z.of_nat N)%Z) (seq 0 (2 * N + 1)).
Definition turn_mass (D : R -> R) (x : R) (N : nat) : R :=
  Rsum (map (fun k => D (2 * PI * IZR k + x) - D (2 * PI * IZR k)) (turns N)).
