From Verif Require Import Prelude NpModel NpProofs CircleSpec UtilsModel UtilsProofs DescModel Desc2Model DescProofs
  CorrSpec ClusModel ClusSpec EmModel EmSpec Em8Proofs Em13Proofs BaseModel BaseSpec BaseProofs Base3Proofs Base7Proofs BaseEx ModesModel ModesSpec ModesProofs Modes2Proofs.
From Coq Require Import String List.
Open Scope string_scope.
Import ListNotations.
Open Scope R_scope.
Open Scope list_scope.

(** Rotating the data of an object. *)
Lemma object_turned x I0 cands wint g t o k md obs o' k' : (forall x, 0 < I0 x) -> a_rotate g = None -> a_bins g = None ->
  copies (o_alpha o) (o_w o) obs -> (forall k, drawn (List.length obs) k (cands k)) ->
  circular_modes x I0 cands wint g k = Ok (o, Some md) -> circular x (with_rotate g t) = Ok (o', k') ->
  exists md', circular_modes x I0 cands wint (with_rotate g t) k = Ok (o', Some md') /\ md_bic md' = md_bic md /\ reported (Some md') = reported (Some md).
Proof.
  intros HI Er Eb CP DR E E'. unfold circular_modes in *. rewrite E'. destruct (circular x g) as [[o1 k1]|] eqn:E0; [|discriminate]. cbn [bind fst] in *.
  match type of E with bind ?x _ = _ => destruct x as [md1|] eqn:E1; [|discriminate] end. cbn [bind] in E.
  assert (o1 = o /\ md1 = Some md) as [-> ->] by (split; congruence). clear E.
  destruct wint; [|unfold circ_modes in E1; destruct (Nat.leb_spec k 1); [discriminate|]; destruct k; [lia|]; discriminate].
  destruct (circular_inv _ _ _ _ E0) as (p & a0 & I1 & I2 & I3 & _ & I5 & I6 & _).
  destruct (circular_inv _ _ _ _ E') as (p' & a0' & J1 & J2 & J3 & _ & J5 & J6 & _).
  cbn [with_rotate a_unit a_cycle a_data a_rotate a_w a_bins a_mean_ci] in *.
  rewrite I1 in J1. injection J1 as J1. rewrite <- J1 in *. rewrite to_alpha_rot in J2. injection J2 as <-.
  rewrite Er in I2. cbn in I2. injection I2 as <-. rewrite Eb in *.
  set (al := map (fun y => data2rad y (o_cycle o)) (a_data g)) in *.
  set (al' := map (fun d => angmod0 (angle_of (o_cycle o) d + t)) (a_data g)) in *.
  assert (F : moved t al al').
  { unfold al, al', moved. clear. induction (a_data g) as [|d u IH]; cbn; constructor; auto. apply same_dir_sym, angmod0_same_dir. }
  assert (G : p_alpha p = al /\ p_alpha p' = al' /\ p_w p' = p_w p).
  { unfold prepare in I3, J3. destruct (a_w g) as [w|].
    - destruct (Nat.eqb (List.length w) (List.length al)); [|discriminate]. destruct (Nat.eqb (List.length w) (List.length al')); [|discriminate]. cbn [negb] in *.
      destruct w as [|v w]; [discriminate|]. destruct (list_min (diff al)); [|discriminate]. destruct (list_min (diff al')); [|discriminate]. cbn [bind] in *.
      injection I3 as <-. injection J3 as <-. auto.
    - injection I3 as <-. injection J3 as <-. cbn [p_alpha p_w]. split; [reflexivity|]. split; [reflexivity|].
      unfold ones, al, al'. now rewrite !map_map. }
  destruct G as (G1 & G2 & G3). rewrite J5, J6, G2, G3. rewrite I5, I6, G1 in *.
  destruct (modes_turned I0 cands (o_cycle o) (o_cycle o) al al' (p_w p) obs k md t HI CP DR F E1) as (md' & -> & A & B & _). cbn [bind fst]. eauto.
Qed.

(** Four observations; observation i starts in group i mod k. *)
Definition round_robin (k : nat) : list (list nat) :=
  match k with O => [] | _ => [map (fun i => Nat.modulo i k) (seq 0 4)] end.
Lemma round_robin_drawn k : drawn 4 k (round_robin k).
Proof.
  unfold drawn, round_robin. destruct k as [|k]; [constructor|constructor; [|constructor]]. split; [reflexivity|]. apply Forall_forall. intros c Hc.
  apply in_map_iff in Hc. destruct Hc as (i & <- & _). apply Nat.mod_upper_bound. lia.
Qed.
Lemma round_robin_covers k : (1 <= k <= 4)%nat -> one_covers k (round_robin k).
Proof.
  intros H. unfold round_robin, one_covers. destruct k as [|k]; [lia|]. eexists. split; [now left|]. intros c Hc. apply in_map_iff. exists c.
  split; [apply Nat.mod_small; lia|]. apply in_seq. lia.
Qed.
(** Two angles with weights 3 and 1. *)
Lemma ex_copies : copies [1; 2] [3; 1] [1; 1; 1; 2].
Proof.
  replace 3 with (INR 3) by (cbn [INR]; ring). change [INR 3; 1] with [INR 3; INR 1].
  exact (cp_more 1 3 _ _ _ (cp_more 2 1 _ _ _ cp_none)).
Qed.
Lemma ex_modes I0 : exists md, circ_modes I0 round_robin 360 true [1; 2] [3; 1] 2 = Ok (Some md).
Proof. exact (modes_total I0 round_robin 360 _ _ _ 2 ex_copies ltac:(lia) (fun k H => round_robin_covers k H)). Qed.
Definition compass : list R := [0; PI / 2; PI; 3 * (PI / 2)].
Lemma compass_balanced : balanced compass.
Proof. split; cbn; rewrite ?cos_0, ?sin_0, ?cos_PI2, ?sin_PI2, ?cos_PI, ?sin_PI, ?cos_3PI2, ?sin_3PI2; ring. Qed.
Lemma ex_compass I0 : exists md, circ_modes I0 round_robin 360 true compass (ones compass) 2 = Ok (Some md).
Proof. exact (modes_total I0 round_robin 360 _ _ _ 2 (copies_ones compass) ltac:(lia) (fun k H => round_robin_covers k H)). Qed.
(** Four observations at 90 degrees, turned by a right angle. *)
Lemma ex_object x I0 : exists o o' md, copies (o_alpha o) (o_w o) (o_alpha o) /\ List.length (o_alpha o) = 4%nat /\
  circular_modes x I0 round_robin true (plain (repeat 90 4) "degree") 2 = Ok (o, Some md) /\
  circular x (with_rotate (plain (repeat 90 4) "degree") (PI / 2)) = Ok (o', None).
Proof.
  destruct (turned_pair x) as (o & o' & E & E' & _). exists o, o'.
  assert (Q : o_w o = ones (o_alpha o) /\ List.length (o_alpha o) = 4%nat).
  { destruct (circular_inv _ _ _ _ E) as (p & a0 & I1 & I2 & I3 & _ & I5 & I6 & _). cbn [plain a_unit a_cycle a_data a_rotate a_w a_bins prepare to_alpha] in *.
    injection I3 as <-. injection I2 as <-. cbn [p_alpha p_w] in *. rewrite I5, I6. split; reflexivity. }
  destruct Q as [Q1 Q2]. assert (C : copies (o_alpha o) (o_w o) (o_alpha o)) by (rewrite Q1; apply copies_ones).
  pose proof (modes_total I0 round_robin (o_cycle o) _ _ _ 2 C ltac:(lia)) as T. rewrite Q2 in T. destruct (T round_robin_covers) as (md & Emd).
  exists md. split; [exact C|]. split; [exact Q2|]. split; [|exact E']. unfold circular_modes. rewrite E. cbn [bind fst]. rewrite Emd. reflexivity.
Qed.
