(** Specification vocabulary for the hypothesis tests; independent of the model. *)
From Verif Require Import Prelude CircleSpec.

(** Exactly k of the listed values (with repetition) satisfy P. *)
Definition counts {A} (P : A -> Prop) (l : list A) (k : nat) : Prop :=
  exists yes no, Permutation l (yes ++ no) /\ Forall P yes /\ Forall (fun x => ~ P x) no /\
    length yes = k.

(** a is less than a quarter turn away from the direction c. *)
Definition in_open_half (c a : R) : Prop :=
  exists t, - (PI / 2) < t < PI / 2 /\ same_dir a (c + t).
(** a lies on the closed half circle that starts at l and runs counter-clockwise. *)
Definition in_closed_half (l a : R) : Prop := exists t, 0 <= t <= PI /\ same_dir a (l + t).
(** a is strictly clockwise / counter-clockwise of m, by less than half a turn. *)
Definition clockwise_of (m a : R) : Prop := exists t, 0 < t < PI /\ same_dir a (m - t).
Definition anticlockwise_of (m a : R) : Prop := exists t, 0 < t < PI /\ same_dir a (m + t).
Definition opposite_to (m a : R) : Prop := same_dir a (m + PI).

(** The classical Hodges-Ajne tail formula. *)
Definition hodges_ajne_p (n m : nat) : R :=
  (INR n - 2 * INR m) * INR (fact n) / (INR (fact m) * INR (fact (n - m)) * 2 ^ (n - 1)).
