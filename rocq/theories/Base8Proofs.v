From Verif Require Import Prelude NpModel NpProofs CircleSpec UtilsModel UtilsProofs DescModel DescProofs
  DescSpec DescApi DescApi2 Desc2Model Desc2Proofs Desc2Spec ArcProofs Desc3Proofs Desc4Proofs Desc6Proofs Desc7Proofs Desc2Ex HypModel HypProofs
  BaseModel BaseSpec BaseProofs Base2Proofs Base3Proofs Base4Proofs Base5Proofs Base6Proofs Base7Proofs.
Open Scope string_scope.
Open Scope R_scope.

(** * C167: the median interval makes the constructor fail *)
Lemma radian_id data : map (fun y => data2rad y (2 * PI)) data = data.
Proof.
  pose proof PI_RGT_0. induction data as [|d t IH]; [reflexivity|]. cbn [map]. rewrite IH. f_equal. unfold data2rad. field. lra.
Qed.
Lemma median_ci_fails x : 195/100 <= x_z x <= 197/100 ->
  (exists e, circular x (plain ci_witness "radian") = Err e) /\
  circular x (with_mean_ci (plain ci_witness "radian") (Some {| kd_method := Some None; kd_ci := None |})) = Err IndexError.
Proof.
  intros Hz. pose proof ci_witness_median as M. pose proof (ci_witness_error _ Hz) as C.
  assert (M' : forall g, a_median g = kmedian_default -> circ_median ci_witness (Some (ones ci_witness)) (km_method (a_median g)) (km_average (a_median g)) (km_average_method (a_median g)) = Ok (MOne (5 * PI / 3))).
  { intros g ->. exact M. }
  split.
  - destruct (circular x (plain ci_witness "radian")) as [[o k]|e] eqn:E; [|eauto]. exfalso.
    destruct (circular_inv _ _ _ _ E) as (p & a0 & I1 & I2 & I3 & _ & I5 & I6 & I7 & _ & _ & _ & _ & _ & _ & _ & _ & _ & _ & _ & _ & _ & I21 & I22).
    cbn in I1. injection I1 as I1. rewrite <- I1 in I2. cbn [plain a_data a_rotate to_alpha] in I2. cbv zeta in I2. rewrite radian_id in I2. injection I2 as <-.
    cbn [plain a_w a_bins prepare] in I3. injection I3 as <-. cbn [p_alpha p_w p_grouped] in *. rewrite I5, I6, M' in I21 by reflexivity.
    injection I21 as I21. rewrite I7, <- I21, I5, C in I22. discriminate.
  - set (g := with_mean_ci _ _).
    assert (Ea : to_alpha (a_data g) (2 * PI) (a_rotate g) = Ok ci_witness).
    { cbn [g with_mean_ci plain a_data a_rotate to_alpha]. cbv zeta. now rewrite radian_id. }
    assert (Hv : valid_sample ci_witness (Some (ones ci_witness))) by (apply ones_valid; discriminate).
    assert (T : trunc (Rsum (ones ci_witness)) = 17%Z) by (rewrite ones_total, trunc_INR; reflexivity).
    destruct (circular_run x g (2 * PI) _ {| p_alpha := ci_witness; p_w := ones ci_witness; p_grouped := false; p_bin := 0; p_bounds := [] |} eq_refl Ea eq_refl)
      as (kp & ray & s & s0 & _ & ->); cbn [p_alpha p_w p_grouped p_bin p_bounds].
    + rewrite T. lia.
    + apply circ_r_range, Hv.
    + cbv zeta. cbn [g with_mean_ci a_mean_ci choose_ci kd_method bind]. fold g. rewrite M' by reflexivity. cbn [bind]. rewrite C. reflexivity.
Qed.
(** * C166: return_average = False *)
Definition all_medians : kmedian := {| km_method := Some "deviation"; km_average := false; km_average_method := "all" |}.
Lemma two_medians : circ_median [0; 0; PI / 2] None (Some "deviation") false "all" = Ok (MMany [0; 0]).
Proof.
  pose proof PI2_3_2 as P3. set (l := [0; 0; PI / 2]).
  assert (Q : isclose12 (circ_r l None) 1 = false).
  { apply isclose12_1_false. apply Rle_lt_trans with (9/10); [|lra]. apply r_small; [discriminate|lra|].
    unfold l. cbn [map length]. rewrite !Rsum_cons, !Rsum_nil, cos_0, sin_0, cos_PI2, sin_PI2. cbn [INR]. lra. }
  unfold circ_median. fold l. change (weights l None) with (ones l). change (circ_r_s (combine l (ones l))) with (circ_r l None). rewrite Q.
  replace (forallb (fun x => Reqb x 1) (ones l)) with true.
  2:{ symmetry. apply forallb_forall. intros z Hz'. unfold ones in Hz'. apply in_map_iff in Hz'. destruct Hz' as (? & <- & _).
      destruct (Reqb_spec 1 1); congruence. }
  cbn [negb String.eqb Ascii.eqb Bool.eqb]. rewrite deviation_median_eq by discriminate. cbn [bind].
  assert (A : forall z, Rabs (z - z) = 0) by (intros; replace (z - z) with 0 by ring; apply Rabs_R0).
  assert (D0 : dev5 l 0 = round5 (PI / 6)).
  { unfold dev5, l, mean. f_equal. cbn [map length]. rewrite !Rsum_cons, !Rsum_nil. cbn [INR]. rewrite !A.
    rewrite (Rabs_pos_eq (PI / 2 - 0)) by lra. rewrite (Rabs_pos_eq (PI - 0)) by lra. rewrite Rabs_pos_eq by lra. lra. }
  assert (D1 : dev5 l (PI / 2) = round5 (PI / 3)).
  { unfold dev5, l, mean. f_equal. cbn [map length]. rewrite !Rsum_cons, !Rsum_nil. cbn [INR]. rewrite !A.
    rewrite (Rabs_left1 (0 - PI / 2)) by lra. rewrite (Rabs_pos_eq (PI - 0)) by lra. rewrite Rabs_pos_eq by lra. lra. }
  assert (LT : round5 (PI / 6) < round5 (PI / 3)) by (apply round5_lt; lra).
  rewrite (select_min_eval _ _ (round5 (PI / 6))).
  - assert (Fl : filter (fun b => Reqb (dev5 l b) (round5 (PI / 6))) [0; 0; PI / 2] = [0; 0]).
    { cbn [filter]. rewrite D0, D1. destruct (Reqb_spec (round5 (PI / 6)) (round5 (PI / 6))); [|congruence].
      destruct (Reqb_spec (round5 (PI / 3)) (round5 (PI / 6))); [lra|]. reflexivity. }
    change (filter (fun b => Reqb (dev5 l b) (round5 (PI / 6))) l) with (filter (fun b => Reqb (dev5 l b) (round5 (PI / 6))) [0; 0; PI / 2]).
    rewrite Fl. unfold l, pick. cbn [length Nat.eqb bind med_mod map]. rewrite angmod0_id by lra. reflexivity.
  - exists 0. split; [left; reflexivity|exact D0].
  - intros b [<-|[<-|[<-|[]]]]; rewrite ?D0, ?D1; lra.
Qed.
Lemma medians_fail x g v l : cycle_of (a_unit g) (a_cycle g) v -> a_w g = None -> a_bins g = None -> a_rotate g = None ->
  circ_median (map (angle_of v) (a_data g)) None (km_method (a_median g)) (km_average (a_median g)) (km_average_method (a_median g)) = Ok (MMany l) ->
  exists e, circular x g = Err e.
Proof.
  intros Hc Ew Eb Er M. destruct (circular x g) as [[o k]|e] eqn:E; [|eauto]. exfalso.
  destruct (circular_inv _ _ _ _ E) as (p & a0 & I1 & I2 & I3 & _ & I5 & I6 & I7 & _ & _ & _ & _ & _ & _ & _ & _ & _ & _ & _ & _ & _ & I21 & I22).
  rewrite (cycle_full _ _ _ Hc) in I1. injection I1 as I1. rewrite <- I1, Er in I2. cbn in I2. injection I2 as <-.
  rewrite Ew, Eb in I3. cbn in I3. injection I3 as <-. cbn [p_alpha p_w p_grouped] in *.
  rewrite I5, I6 in I21.
  assert (I23 : Ok (MMany l) = Ok (o_median o)) by (rewrite <- I21; symmetry; exact M). injection I23 as I23.
  rewrite I7, <- I23 in I22. discriminate.
Qed.
Lemma medians_witness x : circular x (with_median (plain [0; 0; 90] "degree") all_medians) = Err ValueError.
Proof.
  set (g := with_median _ _).
  assert (Ea : to_alpha (a_data g) 360 (a_rotate g) = Ok [0; 0; PI / 2]).
  { cbn. unfold data2rad. repeat (f_equal; try field). }
  assert (Hv : valid_sample [0; 0; PI / 2] (Some (ones [0; 0; PI / 2]))) by (apply ones_valid; discriminate).
  assert (T : trunc (Rsum (ones [0; 0; PI / 2])) = 3%Z) by (rewrite ones_total, trunc_INR; reflexivity).
  destruct (circular_run x g 360 _ {| p_alpha := [0; 0; PI / 2]; p_w := ones [0; 0; PI / 2]; p_grouped := false; p_bin := 0; p_bounds := [] |} eq_refl Ea eq_refl)
      as (kp & ray & s & s0 & _ & ->); cbn [p_alpha p_w p_grouped p_bin p_bounds].
  - rewrite T. lia.
  - apply circ_r_range, Hv.
  - cbv zeta. rewrite T. change (a_mean_ci g) with (@None kdict). rewrite choose_small by lia. cbn [bind].
    change (circ_median [0; 0; PI / 2] (Some (ones [0; 0; PI / 2])) (km_method (a_median g)) (km_average (a_median g)) (km_average_method (a_median g)))
      with (circ_median [0; 0; PI / 2] None (Some "deviation") false "all"). rewrite two_medians. reflexivity.
Qed.
