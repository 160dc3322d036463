(** Specification vocabulary for the descriptive properties: weighted samples,
    sums over a sample, transformations of a sample.  Independent of the model. *)
From Verif Require Import Prelude CircleSpec.

(** Weights given to the API: absent (all 1), or one non-negative weight per
    angle with a positive total. *)
Definition valid_sample (alpha : list R) (w : option (list R)) : Prop :=
  alpha <> [] /\
  match w with
  | None => True
  | Some w => length w = length alpha /\ Forall (fun x => 0 <= x) w /\ 0 < Rsum w
  end.

(** The weight list in force. *)
Definition eff_weights (alpha : list R) (w : option (list R)) : list R :=
  match w with None => repeat 1 (length alpha) | Some w => w end.

(** Weighted total of [f] over the sample. *)
Fixpoint wsum (f : R -> R) (alpha w : list R) : R :=
  match alpha, w with
  | a :: alpha, x :: w => x * f a + wsum f alpha w
  | _, _ => 0
  end.
Definition sample_sum (f : R -> R) (alpha : list R) (w : option (list R)) : R :=
  wsum f alpha (eff_weights alpha w).
Definition sample_size (alpha : list R) (w : option (list R)) : R :=
  sample_sum (fun _ => 1) alpha w.

(** [a] is observed with positive weight. *)
Definition observed (alpha : list R) (w : option (list R)) (a : R) : Prop :=
  exists x, In (a, x) (combine alpha (eff_weights alpha w)) /\ 0 < x.

(** Two samples with the same observations in another order. *)
Definition reordered (alpha : list R) (w : option (list R)) (alpha' : list R) (w' : option (list R)) : Prop :=
  length (eff_weights alpha w) = length alpha /\ length (eff_weights alpha' w') = length alpha' /\
  Permutation (combine alpha (eff_weights alpha w)) (combine alpha' (eff_weights alpha' w')).

(** Each observation moved by some whole number of turns. *)
Definition turned (alpha alpha' : list R) : Prop := Forall2 same_dir alpha alpha'.

Definition is_fin (x : fl) : Prop := exists r, x = Fin r.
