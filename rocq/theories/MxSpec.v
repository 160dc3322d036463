(** Specification vocabulary for the mixture estimators' constructors and densities; independent of the model. *)
From Verif Require Import Prelude CircleSpec IntSpec ClusSpec.
From Coq Require Import String.
Import ListNotations.
Open Scope R_scope.
Open Scope list_scope.

(** One 2 pi-periodic probability density f (per radian) gives every prediction: at points in radians, or at
    points in a unit of which [cycle] make a turn. *)
Definition predicts_density (predict : bool -> R -> list R -> res (list fl)) (f : R -> R) : Prop :=
  (forall x y, same_dir x y -> f x = f y) /\ density f /\
  forall is_radian cycle X, predict is_radian cycle X = Ok (map (fun x => Fin (f x)) (in_radians is_radian cycle X)).
(** All predictions are NaN. *)
Definition predicts_nothing (predict : bool -> R -> list R -> res (list fl)) : Prop :=
  forall is_radian cycle X, predict is_radian cycle X = Ok (map (fun _ => NaN) X).
(** Meaningful settings. *)
Definition sensible (burnin n_clusters n_iters : Z) (threshold : R) (unit : string) : Prop :=
  (0 <= burnin)%Z /\ (0 < n_clusters)%Z /\ (0 < n_iters)%Z /\ 0 < threshold /\ (unit = "degree"%string \/ unit = "radian"%string).
