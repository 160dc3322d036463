(** Vocabulary for the fits. *)
From Verif Require Import Prelude NpModel DistModel DistSpec FcModel.

(** What scipy's bounded minimisers promise: the reported value and gradient are those of the
    objective at the reported point, which lies within the bounds and is no worse than the start. *)
Definition box_min (lo hi : R) (minimize : minimizer) : Prop :=
  forall obj grad a b m r v j, minimize obj grad a b = Some (m, r, v, j) ->
    0 <= m <= 2 * PI /\ lo <= r <= hi /\ v = obj m r /\ j = grad m r /\
    forall y, obj a b = Fin y -> exists x, v = Fin x /\ x <= y.
(** (mu, rho) maximises the likelihood of the data among the parameters in [dom] under which every
    observation is possible, up to [gap]. *)
Definition near_mle (pdf : R -> R -> R -> R) (dom : R -> R -> Prop) (s : list (R * R)) (mu rho gap : R) : Prop :=
  forall m r, dom m r -> (forall d, In d s -> 0 < pdf m r (fst d)) -> loglik (pdf m r) s <= loglik (pdf mu rho) s + gap.
