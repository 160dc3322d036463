(** Witnesses for the examples of BaseProps. *)
From Verif Require Import Prelude NpModel NpProofs CircleSpec UtilsModel UtilsProofs DescModel DescProofs
  DescSpec DescApi DescApi2 Desc2Model Desc2Proofs Desc2Spec ArcProofs Desc3Proofs Desc4Proofs Desc7Proofs Desc2Ex HypModel HypProofs
  BaseModel BaseSpec BaseProofs Base2Proofs Base3Proofs Base4Proofs Base5Proofs Base6Proofs Base7Proofs Base8Proofs Base9Proofs Base10Proofs
  Base11Proofs Base12Proofs Base13Proofs Base14Proofs Base15Proofs.
Open Scope string_scope.
Open Scope R_scope.

(** Some oracles. *)
Definition ex_ext : ext := {| x_chi := 4; x_z := 196/100; x_draws := [] |}.
(** Twenty-six observations in two directions. *)
Definition two_ways : list R := (repeat 0%R 13 ++ repeat 90%R 13)%list.
Definition two_ways_args : args := with_median (plain two_ways "degree") no_median.
Lemma two_ways_alpha : map (angle_of 360) two_ways = (repeat 0%R 13 ++ repeat (PI / 2)%R 13)%list.
Proof.
  unfold two_ways. rewrite map_app, !repeat_map. f_equal; f_equal; unfold angle_of; field.
Qed.
Lemma two_ways_r : circ_r (map (angle_of 360) two_ways) None = sqrt (1/2).
Proof.
  rewrite two_ways_alpha. unfold circ_r. cbn [weights]. set (al := (_ ++ _)%list).
  destruct (ones_sums al) as (O1 & O2 & O3). rewrite circ_r_s_eq by (rewrite O3; unfold al; cbn; lra).
  unfold Rlen. rewrite O1, O2, O3.
  assert (C : Rsum (map cos al) = 13 /\ Rsum (map sin al) = 13).
  { unfold al. cbn [repeat app map]. rewrite cos_0, sin_0, cos_PI2, sin_PI2. repeat rewrite ?Rsum_cons, ?Rsum_nil. split; lra. }
  destruct C as (-> & ->). unfold al. cbn [repeat app length].
  replace (INR 26) with (sqrt (26 * 26)) by (rewrite sqrt_square by lra; cbn; lra).
  rewrite <- sqrt_div_alt by lra. f_equal. field.
Qed.
Lemma two_ways_limit : circ_r (map (angle_of 360) two_ways) None < conc_limit.
Proof.
  rewrite two_ways_r. apply Rle_lt_trans with (3/4); [|unfold conc_limit; lra]. rewrite <- (sqrt_square (3/4)) by lra. apply sqrt_le_1_alt. lra.
Qed.
Lemma two_ways_ok x : 0 < x_z x <= 2 -> exists o m, circular x two_ways_args = Ok (o, None) /\ (25 <= o_n o)%Z /\ o_pval o < 5/100 /\
  o_mean o = Fin m /\ Forall (fun v => 0 <= v) (o_w o) /\ length (o_w o) = length (o_alpha o).
Proof.
  intros Hz. destruct (large_built x two_ways_args 360) as (o & E & _ & N); auto.
  - left. split; reflexivity.
  - cbn. lia.
  - apply two_ways_limit.
  - destruct (circular_inv _ _ _ _ E) as (p & a0 & I1 & I2 & I3 & _ & I5 & I6 & _ & _ & _ & _ & I11 & I12 & _ & _ & I15 & _).
    cbn in I1. injection I1 as I1. rewrite <- I1 in I2. cbn [two_ways_args with_median plain a_data a_rotate to_alpha] in I2.
    change (map (fun y => data2rad y 360) two_ways) with (map (angle_of 360) two_ways) in I2. injection I2 as <-.
    cbn [two_ways_args with_median plain a_w a_bins prepare] in I3. injection I3 as <-. cbn [p_alpha p_w] in *.
    change (circ_r (map (angle_of 360) two_ways) (Some (ones (map (angle_of 360) two_ways)))) with (circ_r (map (angle_of 360) two_ways) None) in I12.
    assert (R : o_r o = sqrt (1/2)) by (rewrite I12; apply two_ways_r).
    assert (S2 : sqrt (1/2) * sqrt (1/2) = 1/2) by (apply sqrt_sqrt; lra). pose proof (sqrt_pos (1/2)).
    assert (M : exists m, o_mean o = Fin m).
    { rewrite I11. match goal with |- exists m, fst (circ_mean_and_r ?a (Some ?w)) = _ => change (circ_mean_and_r a (Some w)) with (circ_mean_and_r_s (combine a w)) end.
      match goal with |- context [circ_mean_and_r_s ?s] => destruct (circ_mean_and_r_s_cases s) as [(Q & _)|(_ & ->)] end.
      - match type of Q with ?s <= _ => change s with (circ_r (map (angle_of 360) two_ways) None) in Q end.
        rewrite two_ways_r in Q. assert (sqrt (1/2) <= 1/2) by lra. nra.
      - eexists. reflexivity. }
    destruct M as (m & M). exists o, m. split; [exact E|]. split; [rewrite N; cbn; lia|]. split.
    + rewrite I15, N, R. change (IZR (Z.of_nat (length (a_data two_ways_args)))) with 26. unfold rayleigh_p.
      replace (1 + 4 * 26 + 4 * (26 ^ 2 - (26 * sqrt (1/2)) ^ 2)) with (1 + 4 * 26 + 4 * (26 ^ 2 - 26 * 26 * (sqrt (1/2) * sqrt (1/2)))) by ring.
      rewrite S2. assert (S41 : sqrt (1 + 4 * 26 + 4 * (26 ^ 2 - 26 * 26 * (1/2))) <= 39) by (rewrite <- (sqrt_square 39) by lra; apply sqrt_le_1_alt; lra).
      apply Rle_lt_trans with (exp (- (14))).
      { match goal with |- exp ?y <= _ => destruct (Req_dec y (-14)) as [->|Q]; [right; f_equal; lra|left; apply exp_increasing; lra] end. }
      rewrite exp_Ropp. replace 14 with (7 + 7) by lra. rewrite exp_plus. pose proof (exp_ineq1 7 ltac:(lra)).
      apply Rle_lt_trans with (/ 64); [apply Rinv_le_contravar; nra|lra].
    + split; [exact M|]. rewrite I5, I6. split; [repeat constructor; lra|reflexivity].
Qed.
(** Four readings of one direction, with and without rotation. *)
Lemma turned_pair x : exists o o' : circ_obj, circular x (plain (repeat 90 4) "degree") = Ok (o, None) /\
  circular x (with_rotate (plain (repeat 90 4) "degree") (PI / 2)) = Ok (o', None) /\ o_mean o = Fin (PI / 2).
Proof.
  pose proof PI_RGT_0.
  destruct (plain_one x (plain (repeat 90 4) "degree") 360 (PI / 2) 4) as (o & E & _ & _ & M & _); auto; [|lra|lia|].
  { cbn [plain a_data a_rotate to_alpha]. rewrite repeat_map. do 2 f_equal. unfold data2rad. field. }
  destruct (plain_one x (with_rotate (plain (repeat 90 4) "degree") (PI / 2)) 360 PI 4) as (o' & E' & _); auto; [|lra|lia|].
  { cbn [plain with_rotate a_data a_rotate]. rewrite to_alpha_rot, repeat_map. do 2 f_equal.
    replace (angle_of 360 90 + PI / 2) with PI by (unfold angle_of; field). apply angmod0_id. lra. }
  exists o, o'. auto.
Qed.

(** Counts 2 and 1 in two bins. *)
Lemma two_bins_r : circ_r (bin_centres 0 2) (Some [2; 1]) < conc_limit.
Proof.
  change (circ_r (bin_centres 0 2) (Some [2; 1])) with (circ_r_s (combine (bin_centres 0 2) [2; 1])).
  rewrite circ_r_s_eq by (unfold wtotal; cbn; lra).
  unfold Rlen, Csum, Ssum, wtotal, bin_centres. cbn [seq map combine INR fst snd]. repeat rewrite ?Rsum_cons, ?Rsum_nil.
  replace (0 + 0 * (2 * PI / (1 + 1))) with 0 by field. replace (0 + 1 * (2 * PI / (1 + 1))) with PI by field. rewrite cos_0, sin_0, cos_PI, sin_PI.
  match goal with |- sqrt ?x / _ < _ => replace x with (1 * 1) by ring end. rewrite sqrt_square by lra. unfold conc_limit. lra.
Qed.
Lemma two_bins_counts : counts [2; 1].
Proof. constructor; [exists 2%nat; cbn; lra|]. constructor; [exists 1%nat; reflexivity|constructor]. Qed.
Lemma two_bins_median : circ_median (bin_centres 0 2) (Some [2; 1]) None false "all" = Ok (MOne 0).
Proof.
  pose proof PI_RGT_0. rewrite median_grouped; [|apply two_bins_r|exists 2; split; [now left|lra]].
  change 2%nat with (2 * 1)%nat. rewrite grouped_even; [|lia|cbn; lra|reflexivity|apply two_bins_counts]. cbv zeta.
  assert (L0 : lsum [2; 1] 1 0 = 2) by (unfold lsum, csum, bin_at; cbn; lra).
  assert (L1 : lsum [2; 1] 1 1 = 1) by (unfold lsum, csum, bin_at; cbn; lra).
  assert (L2 : lsum [2; 1] 1 2 = 2) by (unfold lsum, csum, bin_at; cbn; lra).
  assert (T : Rsum [2; 1] = 3) by (rewrite !Rsum_cons, Rsum_nil; lra).
  assert (C : crossing [2; 1] 1 = [1%nat]).
  { unfold crossing. cbn [seq Nat.mul Nat.add filter]. rewrite L0, L1, L2, T.
    destruct (Rleb_spec 2 (3 / 2)); [lra|]. cbn [andb]. destruct (Rleb_spec 1 (3 / 2)); [|lra]. destruct (Rleb_spec (3 / 2) 2); [|lra]. reflexivity. }
  rewrite C. cbn [length Nat.eqb Nat.mul Nat.add]. rewrite L1, L2, T. rewrite Rmax_right, Rmin_left by lra.
  destruct (Reqb 2 1) eqn:E; [apply Reqb_true in E; lra|]. cbn [bind med_mod]. do 2 f_equal. unfold ub_at. cbn [INR Nat.mul Nat.add].
  match goal with |- angmod0 ?z = 0 => replace z with (0 + 2 * PI * 1) by field end. apply angmod0_unique; [lra|]. exists (-1)%Z. cbn. lra.
Qed.
(** Two observations in the first of two bins. *)
Lemma binned_two x : exists o, circular x (binned [1; 1] 2 "radian") = Ok (o, None) /\ o_alpha o = [PI / 2; 3 * PI / 2] /\ o_w o = [2; 0].
Proof.
  pose proof PI2_3_2. pose proof PI_4. pose proof PI_RGT_0. set (g := binned [1; 1] 2 "radian").
  assert (Ea : to_alpha (a_data g) (2 * PI) (a_rotate g) = Ok [1; 1]).
  { cbn. unfold data2rad. do 2 f_equal; [field; lra|]. f_equal. field. lra. }
  assert (Ee : even_edges 2 = [0; PI; 2 * PI]).
  { unfold even_edges. cbn [seq map INR]. f_equal; [ring|]. f_equal; [field|]. f_equal. field. }
  assert (Ec : centers (even_edges 2) = [PI / 2; 3 * PI / 2]).
  { rewrite Ee. cbn [centers]. f_equal; [field|]. f_equal. field. }
  assert (Ew : hist_counts [1; 1] (even_edges 2) = [2; 0]).
  { rewrite Ee. rewrite !hist_step. unfold count_if. cbn [filter].
    destruct (Rleb_spec 0 1); [|lra]. destruct (Rltb_spec 1 PI); [|lra].
    destruct (Rleb_spec PI 1); [lra|]. cbn. f_equal. }
  assert (Ep : prepare [1; 1] (a_w g) (a_bins g) = Ok {| p_alpha := [PI / 2; 3 * PI / 2]; p_w := [2; 0]; p_grouped := true; p_bin := PI;
      p_bounds := combine [0; PI; 2 * PI] [PI; 2 * PI] |}).
  { unfold prepare. cbn [g binned a_bins a_w hist_edges]. cbn [Z.ltb Z.compare]. change (Z.to_nat 2) with 2%nat. change (2 <? 1)%Z with false. cbn [bind].
    rewrite Ec, Ew, Ee. cbn [diff list_min tl]. replace (3 * PI / 2 - PI / 2) with PI by field. reflexivity. }
  assert (Hv : valid_sample [PI / 2; 3 * PI / 2] (Some [2; 0])).
  { split; [discriminate|]. split; [reflexivity|]. split; [repeat constructor; lra|]. rewrite !Rsum_cons, Rsum_nil. lra. }
  destruct (one_dir_mean _ _ (PI / 2) Hv) as (R1 & M1); [lra| | |].
  { exists 2. split; [left; reflexivity|lra]. }
  { intros b (v & Hb & Pv). cbn in Hb. destruct Hb as [Hb|[Hb|[]]]; injection Hb as <- <-; [exists 0%Z; cbn; lra|lra]. }
  assert (T : trunc (Rsum [2; 0]) = 2%Z) by (rewrite !Rsum_cons, Rsum_nil; replace (2 + (0 + 0)) with (IZR 2) by lra; apply trunc_IZR; lia).
  destruct (circular_run x g (2 * PI) _ _ eq_refl Ea Ep) as (kp & ray & s & s0 & _ & ->); cbn [p_alpha p_w p_grouped p_bin p_bounds].
  - rewrite T. lia.
  - rewrite R1. lra.
  - rewrite T. cbv zeta. cbn [g binned a_mean_ci]. rewrite choose_small by lia. cbn [bind].
    rewrite (one_dir_median _ _ (PI / 2) [3 * PI / 2] _ _ _ eq_refl R1). cbn [bind].
    eexists. split; [reflexivity|]. split; reflexivity.
Qed.
