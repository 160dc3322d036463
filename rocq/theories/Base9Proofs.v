From Verif Require Import Prelude NpModel NpProofs CircleSpec UtilsModel UtilsProofs DescModel DescProofs
  DescSpec DescApi DescApi2 Desc2Model Desc2Proofs Desc2Spec ArcProofs Desc3Proofs Desc4Proofs Desc6Proofs Desc7Proofs Desc2Ex HypModel HypProofs
  BaseModel BaseSpec BaseProofs Base2Proofs Base3Proofs Base4Proofs Base5Proofs Base6Proofs Base7Proofs Base8Proofs.
From Coq Require Import Permutation.
Open Scope string_scope.
Open Scope R_scope.

(** * C164: the bins listed in another order *)
Lemma Rsum_permut l l' : Permutation l l' -> Rsum l = Rsum l'.
Proof. induction 1; rewrite ?Rsum_cons; try lra. Qed.
Lemma prepare_w al w p : prepare al (Some w) None = Ok p -> p_alpha p = al /\ p_w p = w /\ length w = length al /\ list_min (diff al) = Ok (p_bin p).
Proof.
  unfold prepare. destruct (Nat.eqb_spec (length w) (length al)); [|discriminate]. cbn [negb].
  destruct w; [discriminate|]. destruct (list_min (diff al)); [|discriminate]. cbn [bind]. intros E. injection E as <-. auto.
Qed.
Lemma relisted x g d w d' w' o k o' k' : a_bins g = None -> a_rotate g = None ->
  Permutation (combine d w) (combine d' w') ->
  circular x (with_bins g d w) = Ok (o, k) -> circular x (with_bins g d' w') = Ok (o', k') ->
  o_n o' = o_n o /\ o_mean o' = o_mean o /\ o_r o' = o_r o /\ o_pval o' = o_pval o /\ o_R o' = o_R o /\
  o_kappa o' = o_kappa o /\ o_method o' = o_method o /\
  (o_bin_size o' = o_bin_size o -> o_s o' = o_s o /\ o_s0 o' = o_s0 o).
Proof.
  intros Eb Er P E E'. pose proof (circular_kappa _ _ _ _ E) as K. pose proof (circular_kappa _ _ _ _ E') as K'.
  destruct (circular_inv _ _ _ _ E) as (p & a0 & I1 & I2 & I3 & _ & I5 & I6 & _ & I8 & _ & I10 & I11 & I12 & I13 & _ & I15 & I16 & I17 & _ & I19 & I20 & _).
  destruct (circular_inv _ _ _ _ E') as (p' & a0' & J1 & J2 & J3 & _ & J5 & J6 & _ & J8 & _ & J10 & J11 & J12 & J13 & _ & J15 & J16 & J17 & _ & J19 & J20 & _).
  cbn [with_bins a_unit a_cycle a_data a_rotate a_w a_bins a_mean_ci] in *.
  rewrite I1 in J1. injection J1 as J1. rewrite <- J1 in *. rewrite Er in *. cbn in I2, J2. injection I2 as <-. injection J2 as <-.
  rewrite Eb in *. destruct (prepare_w _ _ _ I3) as (P1 & P2 & P3 & _). destruct (prepare_w _ _ _ J3) as (Q1 & Q2 & Q3 & _).
  rewrite P1, P2 in *. rewrite Q1, Q2 in *. rewrite map_length in P3, Q3.
  set (f := fun y => data2rad y (o_cycle o)) in *.
  assert (S : Rsum w' = Rsum w).
  { rewrite <- (combine_snd d w), <- (combine_snd d' w') by auto. apply Rsum_permut, Permutation_map, Permutation_sym, P. }
  destruct (api_reordered (map f d) (Some w) (map f d') (Some w')) as (_ & A2 & A3).
  { split; [|split]; cbn [eff_weights]; rewrite ?map_length; auto.
    rewrite !combine_map_l. apply Permutation_map, P. }
  assert (Er' : o_r o' = o_r o) by congruence. assert (En : o_n o' = o_n o) by congruence.
  assert (Ep : o_pval o' = o_pval o) by congruence.
  split; [exact En|]. split; [congruence|]. split; [exact Er'|]. split; [exact Ep|]. split; [congruence|].
  split; [rewrite Er', En in K'; congruence|].
  split. { rewrite Ep, En, <- I17 in J17. now injection J17. }
  intros B. rewrite Er', B in J19, J20. split; congruence.
Qed.
(** Bins of a quarter turn at 0, 90 and 270 degrees, one observation each. *)
Definition no_median : kmedian := {| km_method := None; km_average := false; km_average_method := "all" |}.
Definition three_bins (d : list R) : args := with_median (weighted d [1; 1; 1] "degree") no_median.
Lemma three_r l : l = [0; PI / 2; 3 * PI / 2] \/ l = [3 * PI / 2; 0; PI / 2] -> circ_r l (Some [1; 1; 1]) = 1/3.
Proof.
  intros H. assert (S3 : sin (3 * PI / 2) = -1 /\ cos (3 * PI / 2) = 0).
  { replace (3 * PI / 2) with (3 * (PI / 2)) by field. split; [apply sin_3PI2|apply cos_3PI2]. }
  unfold circ_r. cbn [weights]. rewrite circ_r_s_eq.
  - unfold Rlen, Csum, Ssum, wtotal. destruct H as [-> | ->]; cbn [combine map fst snd]; rewrite !Rsum_cons, !Rsum_nil, cos_0, sin_0, cos_PI2, sin_PI2, (proj1 S3), (proj2 S3);
    match goal with |- sqrt ?z / _ = _ => replace z with 1 by ring end; rewrite sqrt_1; lra.
  - unfold wtotal. destruct H as [-> | ->]; cbn [combine map snd]; rewrite !Rsum_cons, !Rsum_nil; lra.
Qed.
Lemma three_run x l d b : l = [0; PI / 2; 3 * PI / 2] \/ l = [3 * PI / 2; 0; PI / 2] ->
  map (fun y => data2rad y 360) d = l -> list_min (diff l) = Ok b ->
  exists o, circular x (three_bins d) = Ok (o, None) /\ o_bin_size o = b /\ circ_std None None (Some (1/3)) (Some b) = Ok (o_s0 o).
Proof.
  intros Hl Hd Hb. set (g := three_bins d). pose proof (three_r l Hl) as R1.
  assert (Ea : to_alpha (a_data g) 360 (a_rotate g) = Ok l) by (cbn; now rewrite Hd).
  assert (Ll : length l = 3%nat) by (destruct Hl as [-> | ->]; reflexivity).
  assert (Ep : prepare l (a_w g) (a_bins g) = Ok {| p_alpha := l; p_w := [1; 1; 1]; p_grouped := true; p_bin := b;
      p_bounds := map (fun a => (a - b / 2, a + b / 2)) l |}).
  { unfold prepare. cbn [g three_bins with_median weighted a_w a_bins length]. rewrite Ll. cbn [Nat.eqb negb]. rewrite Hb. reflexivity. }
  assert (T : trunc (Rsum [1; 1; 1]) = 3%Z) by (rewrite !Rsum_cons, Rsum_nil; replace (1 + (1 + (1 + 0))) with (IZR 3) by lra; apply trunc_IZR; lia).
  assert (Q : circ_median l (Some [1; 1; 1]) None false "all" = Ok MNaN).
  { unfold circ_median. cbn [weights]. change (circ_r_s (combine l [1; 1; 1])) with (circ_r l (Some [1; 1; 1])). rewrite R1.
    rewrite isclose12_1_false by lra. cbn [forallb]. destruct (Reqb_spec 1 1); [|congruence]. reflexivity. }
  destruct (circular x g) as [[o k]|e] eqn:E.
  - destruct (circular_inv _ _ _ _ E) as (p & a0 & I1 & I2 & I3 & _ & I5 & I6 & _ & I8 & _ & I10 & I11 & I12 & I13 & _ & I15 & I16 & I17 & _ & I19 & I20 & _).
    cbn in I1. injection I1 as I1. rewrite <- I1 in I2. rewrite Ea in I2. injection I2 as <-. rewrite Ep in I3. injection I3 as <-.
    cbn [p_alpha p_w p_bin] in *. exists o. rewrite I10, T in I17. change (a_mean_ci g) with (@None kdict) in I17.
    rewrite choose_small in I17 by lia. injection I17 as _ _ ->. split; [reflexivity|]. split; [exact I8|]. rewrite I8, I12, R1 in I20. exact I20.
  - exfalso. revert E. destruct (circular_run x g 360 _ _ eq_refl Ea Ep) as (kp & ray & s & s0 & _ & ->); cbn [p_alpha p_w p_grouped p_bin p_bounds].
    + rewrite T. lia.
    + rewrite R1. lra.
    + cbv zeta. rewrite T. change (a_mean_ci g) with (@None kdict). rewrite choose_small by lia. cbn [bind].
      change (km_method (a_median g)) with (@None string). change (km_average (a_median g)) with false. change (km_average_method (a_median g)) with "all".
      rewrite Q. cbn [bind]. discriminate.
Qed.
Lemma order_matters x : exists o o' v, circular x (three_bins [0; 90; 270]) = Ok (o, None) /\
  circular x (three_bins [270; 0; 90]) = Ok (o', None) /\
  o_bin_size o = PI / 2 /\ o_bin_size o' = - (3 * PI / 2) /\ o_s0 o = Fin v /\ o_s0 o' = NaN.
Proof.
  pose proof PI_RGT_0 as P0. pose proof PI2_3_2 as P3.
  destruct (three_run x [0; PI / 2; 3 * PI / 2] [0; 90; 270] (PI / 2)) as (o & E & B & S).
  { now left. } { cbn. unfold data2rad. repeat (f_equal; try field). }
  { cbn [diff list_min Rlmin]. f_equal. unfold Rlmin. cbn. rewrite Rmin_left; lra. }
  destruct (three_run x [3 * PI / 2; 0; PI / 2] [270; 0; 90] (- (3 * PI / 2))) as (o' & E' & B' & S').
  { now right. } { cbn. unfold data2rad. repeat (f_equal; try field). }
  { cbn [diff list_min Rlmin]. f_equal. unfold Rlmin. cbn. rewrite Rmin_left; lra. }
  assert (S4 : 7/10 < sin (PI / 4) < 71/100).
  { rewrite sin_PI4. assert (Q1 : 141/100 < sqrt 2) by (rewrite <- (sqrt_square (141/100)) by lra; apply sqrt_lt_1; lra).
    assert (Q2 : sqrt 2 < 142/100) by (rewrite <- (sqrt_square (142/100)) by lra; apply sqrt_lt_1; lra).
    pose proof (sqrt_sqrt 2 ltac:(lra)).
    split.
    - apply (Rmult_lt_reg_r (sqrt 2)); [lra|]. unfold Rdiv. rewrite Rmult_1_l, Rinv_l by lra. lra.
    - apply (Rmult_lt_reg_r (sqrt 2)); [lra|]. unfold Rdiv at 1. rewrite Rmult_1_l, Rinv_l by lra. lra. }
  assert (Rc : 0 < 1/3 * (PI / 2 / (2 * sin (PI / 2 / 2))) < 1).
  { replace (PI / 2 / 2) with (PI / 4) by field. set (s := sin (PI / 4)) in *.
    assert (0 < / (2 * s)) by (apply Rinv_0_lt_compat; lra).
    split; [apply Rmult_lt_0_compat; [lra|]; apply Rmult_lt_0_compat; lra|].
    apply (Rmult_lt_reg_r (2 * s)); [lra|]. replace (1 / 3 * (PI / 2 / (2 * s)) * (2 * s)) with (PI / 6) by (field; lra). pose proof PI_4. lra. }
  assert (Rc' : 1 < 1/3 * (- (3 * PI / 2) / (2 * sin (- (3 * PI / 2) / 2)))).
  { replace (- (3 * PI / 2) / 2) with (- (PI - PI / 4)) by field. rewrite sin_neg, sin_PI_x. set (s := sin (PI / 4)) in *.
    apply (Rmult_lt_reg_r (2 * s)); [lra|]. replace (1 / 3 * (- (3 * PI / 2) / (2 * - s)) * (2 * s)) with (PI / 2) by (field; lra). lra. }
  exists o, o'. unfold circ_std, circ_var in S, S'. cbn [bind] in S, S'.
  destruct (Reqb_spec (PI / 2) 0); [lra|]. destruct (Reqb_spec (- (3 * PI / 2)) 0); [lra|].
  set (q := 1/3 * (PI / 2 / (2 * sin (PI / 2 / 2)))) in *. set (q' := 1/3 * (- (3 * PI / 2) / (2 * sin (- (3 * PI / 2) / 2)))) in *.
  replace (1 - (1 - q)) with q in S by ring. replace (1 - (1 - q')) with q' in S' by ring.
  destruct (Rltb_spec q 0); [lra|]. destruct (Reqb_spec q 0); [lra|].
  destruct (Rltb_spec q' 0); [lra|]. destruct (Reqb_spec q' 0); [lra|].
  assert (ln q < 0) by (rewrite <- ln_1; apply ln_increasing; lra).
  assert (0 < ln q') by (rewrite <- ln_1; apply ln_increasing; lra).
  unfold np_sqrt in S, S'. destruct (Rltb_spec (-2 * ln q) 0); [lra|]. destruct (Rltb_spec (-2 * ln q') 0); [|lra].
  injection S as S. injection S' as S'. exists (sqrt (-2 * ln q)). repeat split; auto.
Qed.
