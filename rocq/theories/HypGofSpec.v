(** Specification vocabulary for the goodness-of-fit tests; independent of the model. *)
From Verif Require Import Prelude CircleSpec.

(** All angles lie within one turn of each other (any cut, e.g. [0, 2 pi) or [-pi, pi)). *)
Definition within_turn (s : list R) : Prop := forall a b, In a s -> In b s -> a - b < 2 * PI.
(** b is the sample a turned by t / reflected, as directions, in the same order. *)
Definition turned_by (t : R) (a b : list R) : Prop := Forall2 (fun x y => same_dir y (x + t)) a b.
Definition mirrored (t : R) (a b : list R) : Prop := Forall2 (fun x y => same_dir y (t - x)) a b.
(** The n directions are the corners of a regular n-gon. *)
Definition equally_spaced (s : list R) : Prop :=
  exists c l, Permutation s l /\
    Forall2 same_dir l (map (fun i => c + 2 * PI * INR i / INR (length s)) (seq 0 (length s))).
(** All observations are one and the same number. *)
Definition coincident (s : list R) : Prop := forall a b, In a s -> In b s -> a = b.
(** The domain accepted by circ_range_test: |a| <= 2 pi up to 1e-8. *)
Definition in_two_turns (a : R) : Prop := Rabs a <= 2 * PI + / 100000000.
