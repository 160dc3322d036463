(** Specification vocabulary for the choice of the number of modes; of the model it mentions only the
    records of a fit. *)
From Verif Require Import Prelude EmModel EmSpec.

(** obs lists each angle as often as its weight says. *)
Inductive copies : list R -> list R -> list R -> Prop :=
| cp_none : copies [] [] []
| cp_more a k alpha w obs : copies alpha w obs -> copies (a :: alpha) (INR k :: w) (repeat a k ++ obs).
(** The labellings drawn for k groups and n observations; one of them uses every group. *)
Definition drawn (n k : nat) (cands : list (list nat)) : Prop :=
  Forall (fun l => length l = n /\ Forall (fun c => (c < k)%nat) l) cands.
Definition one_covers (k : nat) (cands : list (list nat)) : Prop :=
  exists l, In l cands /\ forall c, (c < k)%nat -> In c l.
(** Position k holds the first of the smallest numbers; NaN are passed over. *)
Definition least_at (l : list fl) (k : nat) : Prop :=
  exists v, nth_error l k = Some (Fin v) /\
    forall j u, nth_error l j = Some (Fin u) -> v <= u /\ ((j < k)%nat -> v < u).
(** The resultant of the observations vanishes. *)
Definition balanced (obs : list R) : Prop := Rsum (map cos obs) = 0 /\ Rsum (map sin obs) = 0.
(** m is a fit with k components and b its BIC: a number made of the log likelihood of the observations
    under the mixture and 3 k - 1 free parameters, or NaN when a component has no mean. *)
Definition candidate (I0 : R -> R) (obs : list R) (k : nat) (m : mix vm) (b : fl) : Prop :=
  length (mx_cs m) = k /\
  ((exists ps cs, mx_p m = map Fin ps /\ map (fun c => (vm_mu c, vm_kappa c)) (mx_cs m) = map (fun c => (Fin (fst c), Fin (snd c))) cs /\
      b = Fin (bic_value (neg_loglik (fun c x => vm_density I0 (fst c) (snd c) x) (map (fun q => q + / 10 ^ 32) ps) cs obs) (length obs) (3 * k - 1))) \/
   ((exists c, In c (mx_cs m) /\ vm_mu c = NaN) /\ b = NaN)).
