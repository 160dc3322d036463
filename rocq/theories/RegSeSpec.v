(** Standard errors from the Fisher information.  Nothing here refers to the model. *)
From Verif Require Import Prelude CircleSpec IntSpec VonSpec RegSpec RegClSpec.

Definition vm_dens (iv : nat -> R -> R) (m k t : R) : R := exp (k * cos (t - m)) / (2 * PI * iv 0%nat k).
(** Along a curve of models, with [loc s x] and [conc s x] the location and the concentration
    given to the predictors [x] at the time s: the Fisher information at s = 0 of independent
    observations at [rows], the sum of the expected squares of their scores. *)
Definition fisher (iv : nat -> R -> R) (loc conc : R -> list R -> R) (rows : list (list R)) (v : R) : Prop :=
  exists us, v = Rsum us /\
    Forall2 (fun x u => exists score,
      (forall t, derivable_pt_lim (fun s => ln (vm_dens iv (loc s x) (conc s x) t)) 0 (score t)) /\
      integral (fun t => score t ^ 2 * vm_dens iv (loc 0 x) (conc 0 x) t) 0 (2 * PI) u) rows us.
Definition quad_form (p : nat) (A : list (list R)) (e : list R) : R :=
  Rsum (map (fun i => Rsum (map (fun j => nth i e 0 * entry A i j * nth j e 0) (seq 0 p))) (seq 0 p)).
Definition symmetric (p : nat) (A : list (list R)) : Prop :=
  shaped p p A /\ forall i j, (i < p)%nat -> (j < p)%nat -> entry A i j = entry A j i.
(** The information matrix of p parameters; [loc e] and [conc e] are the curve that leaves the
    parameters in the direction e. *)
Definition information (iv : nat -> R -> R) (p : nat) (loc conc : list R -> R -> list R -> R) (rows : list (list R)) (A : list (list R)) : Prop :=
  symmetric p A /\ forall e, length e = p -> fisher iv (loc e) (conc e) rows (quad_form p A e).
(** [B] is the inverse of A + c 1. *)
Definition inverse_of (p : nat) (c : R) (A B : list (list R)) : Prop :=
  shaped p p B /\ forall i j, (i < p)%nat -> (j < p)%nat ->
    Rsum (map (fun k => (entry A i k + if Nat.eqb i k then c else 0) * entry B k j) (seq 0 p)) = if Nat.eqb i j then 1 else 0.
(** The square roots of diagonal entries. *)
Definition root_diag (B : list (list R)) (js : list nat) : list fl := map (fun j => Fin (sqrt (entry B j j))) js.
