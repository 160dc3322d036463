(** C219, C220: the number of modes that a Circular object reports. *)
From Verif Require Import Prelude NpModel CircleSpec UtilsModel DescModel Desc2Model CorrSpec ClusModel ClusSpec EmModel EmSpec Em13Proofs
  BaseModel BaseSpec BaseEx ModesModel ModesSpec ModesProofs Modes2Proofs ModesEx.
From Coq Require Import String List.
Open Scope string_scope.
Import ListNotations.
Open Scope R_scope.
Open Scope list_scope.

(** ** C219: n_clusters_max compares every number of components by BIC *)
(** Missing: that every candidate has a BIC, which fails (C219_refuted). *)
Theorem C219_choice_partial : forall I0 cands cycle alpha w obs kmax md, (forall x, 0 < I0 x) -> copies alpha w obs ->
  (forall k, drawn (List.length obs) k (cands k)) -> circ_modes I0 cands cycle true alpha w kmax = Ok (Some md) ->
  (2 <= kmax)%nat /\ List.length (md_mix md) = kmax /\ List.length (md_bic md) = kmax /\
  (forall i m b, nth_error (md_mix md) i = Some m -> nth_error (md_bic md) i = Some b ->
     movm_fit I0 {| c_burnin := 30; c_K := S i; c_iters := 100; c_threshold := / 10 ^ 16; c_radian := true; c_cycle := cycle |}
       (false, None) (cands (S i)) obs = Ok m /\ candidate I0 obs (S i) m b) /\
  match md_opt md with
  | Some m => exists i, nth_error (md_mix md) i = Some m /\ least_at (md_bic md) i /\ reported (Some md) = Some (S i)
  | None => Forall (fun b => b = NaN) (md_bic md)
  end.
Proof.
  intros I0 cands cycle alpha w obs kmax md HI CP DR E. destruct (modes_spec I0 cands cycle alpha w obs kmax md HI CP DR E) as (A & B & C & D & F).
  split; [exact A|]. split; [exact B|]. split; [exact C|]. split.
  - intros i m b Hm Hb. destruct (D i m b Hm Hb) as (G & _ & H). split; [exact G|exact H].
  - cbn [reported]. destruct (md_opt md) as [m|]; [|exact F]. destruct F as (i & Hi & L). exists i. split; [exact Hi|]. split; [exact L|].
    destruct L as (v & Hv & _). destruct (D i m (Fin v) Hi Hv) as (_ & _ & -> & _). reflexivity.
Qed.
Print Assumptions C219_choice_partial.
(** A sample whose resultant vanishes has no BIC for one component, and is never reported unimodal. *)
Theorem C219_balanced : forall I0 cands cycle alpha w obs kmax md, (forall x, 0 < I0 x) -> copies alpha w obs ->
  (forall k, drawn (List.length obs) k (cands k)) -> balanced obs -> circ_modes I0 cands cycle true alpha w kmax = Ok (Some md) ->
  nth_error (md_bic md) 0 = Some NaN /\ reported (Some md) <> Some 1%nat.
Proof. exact modes_balanced. Qed.
Print Assumptions C219_balanced.
Theorem C219_refuted : forall I0, (forall x, 0 < I0 x) -> exists cands alpha w obs md, copies alpha w obs /\ (forall k, drawn (List.length obs) k (cands k)) /\
  circ_modes I0 cands 360 true alpha w 2 = Ok (Some md) /\ In NaN (md_bic md).
Proof.
  intros I0 HI. destruct (ex_compass I0) as (md & E). exists round_robin, compass, (ones compass), compass, md.
  split; [exact (copies_ones compass)|]. split; [exact round_robin_drawn|]. split; [exact E|].
  destruct (modes_balanced I0 round_robin 360 _ _ _ 2 md HI (copies_ones compass) round_robin_drawn compass_balanced E) as [H _].
  exact (nth_error_In _ _ H).
Qed.
Print Assumptions C219_refuted.
(** More components than observations: no object at all.  Float weights: none either. *)
Theorem C219_room : forall I0 cands cycle alpha w obs kmax, copies alpha w obs -> (2 <= kmax)%nat ->
  (forall k, (1 <= k <= List.length obs)%nat -> one_covers k (cands k)) ->
  if Nat.leb kmax (List.length obs) then exists md, circ_modes I0 cands cycle true alpha w kmax = Ok (Some md)
  else circ_modes I0 cands cycle true alpha w kmax = Err ValueError.
Proof. exact modes_total. Qed.
Print Assumptions C219_room.
Theorem C219_float_weights : forall I0 cands cycle alpha w kmax, (2 <= kmax)%nat -> circ_modes I0 cands cycle false alpha w kmax = Err TypeError.
Proof. exact modes_float. Qed.
Print Assumptions C219_float_weights.
Example C219_example : copies [1; 2] [3; 1] [1; 1; 1; 2] /\ (forall k, drawn 4 k (round_robin k)) /\
  (forall k, (1 <= k <= 4)%nat -> one_covers k (round_robin k)) /\ (forall I0, exists md, circ_modes I0 round_robin 360 true [1; 2] [3; 1] 2 = Ok (Some md)) /\
  balanced compass /\ (forall I0, exists md, circ_modes I0 round_robin 360 true compass (ones compass) 2 = Ok (Some md)).
Proof.
  split; [exact ex_copies|]. split; [exact round_robin_drawn|]. split; [exact round_robin_covers|]. split; [exact ex_modes|].
  split; [exact compass_balanced|exact ex_compass].
Qed.

(** ** C220: the number of modes does not depend on the zero direction *)
Theorem C220_turned : forall I0 cands cycle cycle' alpha alpha' w obs kmax md t, (forall x, 0 < I0 x) -> copies alpha w obs ->
  (forall k, drawn (List.length obs) k (cands k)) -> moved t alpha alpha' -> circ_modes I0 cands cycle true alpha w kmax = Ok (Some md) ->
  exists md', circ_modes I0 cands cycle' true alpha' w kmax = Ok (Some md') /\ md_bic md' = md_bic md /\ reported (Some md') = reported (Some md) /\
    Forall2 (fun m m' => mx_p m' = mx_p m /\ mx_labels m' = mx_labels m /\
      Forall2 (fun c c' => turned_fl t (vm_mu c) (vm_mu c') /\ vm_kappa c' = vm_kappa c) (mx_cs m) (mx_cs m')) (md_mix md) (md_mix md').
Proof. exact modes_turned. Qed.
Print Assumptions C220_turned.
Theorem C220_rotate : forall x I0 cands wint g t o k md obs o' k', (forall x, 0 < I0 x) -> a_rotate g = None -> a_bins g = None ->
  copies (o_alpha o) (o_w o) obs -> (forall k, drawn (List.length obs) k (cands k)) ->
  circular_modes x I0 cands wint g k = Ok (o, Some md) -> circular x (with_rotate g t) = Ok (o', k') ->
  exists md', circular_modes x I0 cands wint (with_rotate g t) k = Ok (o', Some md') /\ md_bic md' = md_bic md /\ reported (Some md') = reported (Some md).
Proof. exact object_turned. Qed.
Print Assumptions C220_rotate.
(** The same observations, grouped or one by one. *)
Theorem C220_grouped : forall I0 cands cycle alpha w obs kmax, copies alpha w obs ->
  circ_modes I0 cands cycle true alpha w kmax = circ_modes I0 cands cycle true obs (ones obs) kmax.
Proof.
  intros I0 cands cycle alpha w obs kmax C. unfold circ_modes. now rewrite (copies_expand _ _ _ C), (copies_expand _ _ _ (copies_ones obs)).
Qed.
Print Assumptions C220_grouped.
Example C220_example : moved 1 [1; 2] [2; 3 - 2 * PI] /\ copies [1; 2] [3; 1] [1; 1; 1; 2] /\
  (forall I0, exists md, circ_modes I0 round_robin 360 true [1; 2] [3; 1] 2 = Ok (Some md)) /\
  forall x I0, exists o o' md, copies (o_alpha o) (o_w o) (o_alpha o) /\ List.length (o_alpha o) = 4%nat /\
    circular_modes x I0 round_robin true (plain (repeat 90 4) "degree") 2 = Ok (o, Some md) /\
    circular x (with_rotate (plain (repeat 90 4) "degree") (PI / 2)) = Ok (o', None).
Proof.
  split; [constructor; [exists 0%Z; cbn [IZR]; ring|constructor; [exists 1%Z; cbn [IZR]; ring|constructor]]|].
  split; [exact ex_copies|]. split; [exact ex_modes|]. exact ex_object.
Qed.
