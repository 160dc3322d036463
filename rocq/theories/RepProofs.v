(** The printed summary. *)
From Verif Require Import Prelude NpModel NpProofs CircleSpec UtilsModel UtilsProofs DescModel DescProofs DescSpec DescApi DescApi2 Desc2Model HypModel HypProofs
  BaseModel BaseSpec BaseProofs Base2Proofs Base3Proofs Base4Proofs Base5Proofs Base6Proofs Base7Proofs Base8Proofs Base9Proofs LevModel RepModel RepSpec.
Open Scope string_scope.
Open Scope R_scope.

(** * The unit *)
Lemma alpha_same x g g' c c' a o k o' k' : full_cycle_of (a_unit g) (a_cycle g) = Ok c ->
  full_cycle_of (a_unit g') (a_cycle g') = Ok c' ->
  to_alpha (a_data g) c (a_rotate g) = a -> to_alpha (a_data g') c' (a_rotate g') = a ->
  a_w g = a_w g' -> a_bins g = a_bins g' -> circular x g = Ok (o, k) -> circular x g' = Ok (o', k') ->
  o_alpha o' = o_alpha o /\ o_cycle o = c /\ o_cycle o' = c'.
Proof.
  intros E1 E2 E3 E4 Ew Eb E E'.
  destruct (circular_inv _ _ _ _ E) as (p & a0 & I1 & I2 & I3 & _ & I5 & _).
  destruct (circular_inv _ _ _ _ E') as (p' & a0' & J1 & J2 & J3 & _ & J5 & _).
  rewrite E1 in I1. injection I1 as I1. rewrite E2 in J1. injection J1 as J1.
  rewrite <- I1, E3 in I2. rewrite <- J1, E4, I2 in J2. injection J2 as J2. rewrite J2 in I3.
  rewrite Ew, Eb, J3 in I3. injection I3 as ->. rewrite I5, J5. auto.
Qed.
Lemma rad_times v v' a : v <> 0 -> rad2data a (Some v') = v' / v * rad2data a (Some v).
Proof. intros H. unfold rad2data. pose proof PI_RGT_0. field. split; lra. Qed.
Lemma unit_times v v' a : v <> 0 -> times (v' / v) (in_unit v a) (in_unit v' a).
Proof. intros H. destruct a; cbn [in_unit times]; try reflexivity. apply rad_times. exact H. Qed.
Lemma summary_units x g u' c' v v' : cycle_of (a_unit g) (a_cycle g) v -> cycle_of u' c' v' -> v <> 0 -> v' <> 0 ->
  rescaled_outcome (v' / v) (summary x g) (summary x (with_unit g (map (fun d => d * v' / v) (a_data g)) u' c')).
Proof.
  intros H H' Nv Nv'. pose proof (unit_free x g u' c' v v' H H' Nv Nv') as S.
  set (g' := with_unit _ _ _ _) in *. unfold summary.
  destruct (circular x g) as [[o k]|e] eqn:E, (circular x g') as [[o' k']|e'] eqn:E'; try contradiction; [|exact S].
  cbn [bind fst]. destruct S as [S _].
  destruct (alpha_same x g g' v v' (to_alpha (a_data g) v (a_rotate g)) o k o' k' (cycle_full _ _ _ H) (cycle_full _ _ _ H') eq_refl) as (A & C & C'); auto.
  { unfold g'. cbn [a_data a_rotate with_unit]. unfold to_alpha. rewrite map_map.
    replace (map (fun y => data2rad (y * v' / v) v') (a_data g)) with (map (fun y => data2rad y v) (a_data g)); [reflexivity|].
    apply map_ext. intros d. unfold data2rad. field; auto. }
  destruct S as (S1 & S2 & S3 & S4 & S5 & S6 & S7 & S8 & S9 & S10 & S11 & S12 & S13 & S14 & S15 & S16 & S17).
  unfold repr, moment_ratio. rewrite C, C', A, <- S1, <- S2, <- S5, <- S6, <- S7, <- S8, <- S10, <- S11, <- S12, <- S13, <- S14, <- S15, <- S16, <- S17.
  assert (M : a_median g' = a_median g) by reflexivity. rewrite M.
  destruct (o_median o) as [|m|l]; cbn [bind]; [| |reflexivity].
  - unfold rescaled_outcome, rescaled. cbn. repeat (split; [first [reflexivity|apply unit_times; exact Nv|idtac]|]); try reflexivity.
    + destruct (o_mean_ci o) as [[lo up]|]; cbn; auto. split; [reflexivity|]. split; apply rad_times; exact Nv.
    + destruct (o_median_ci o) as [[[lo up]|]|]; cbn; auto. split; [reflexivity|]. split; apply rad_times; exact Nv.
  - unfold rescaled_outcome, rescaled. cbn. repeat (split; [first [reflexivity|apply unit_times; exact Nv|idtac]|]); try reflexivity.
    + destruct (o_mean_ci o) as [[lo up]|]; cbn; auto. split; [reflexivity|]. split; apply rad_times; exact Nv.
    + apply rad_times. exact Nv.
    + destruct (o_median_ci o) as [[[lo up]|]|]; cbn; auto. split; [reflexivity|]. split; apply rad_times; exact Nv.
Qed.

(** * What the lines say *)
Lemma wsum_map (f : R -> R) (h : R -> R) d : forall w, wsum f (map h d) w = wsum (fun y => f (h y)) d w.
Proof. induction d as [|y d IH]; intros [|a w]; cbn; auto. rewrite IH. reflexivity. Qed.
Lemma summary_inv x g s : summary x g = Ok s -> exists o k, circular x g = Ok (o, k) /\ repr (a_unit g) (a_median g) None o = Ok s.
Proof.
  unfold summary. destruct (circular x g) as [[o k]|e]; [|discriminate]. cbn. intros E. exists o, k. auto.
Qed.
Lemma trunc_spec y : 0 <= y -> IZR (trunc y) <= y < IZR (trunc y) + 1.
Proof.
  intros H. unfold trunc. destruct (Rltb_spec y 0); [lra|]. apply Rfloor_spec.
Qed.
Lemma mean_reads v d w m r : 0 < v -> valid_sample (map (angle_of v) d) (Some w) -> circ_mean_and_r (map (angle_of v) d) (Some w) = (m, r) -> reads_mean v d w (in_unit v m).
Proof.
  intros Hv V E. pose proof PI_RGT_0 as Hp.
  assert (P : 0 < Rsum w) by (destruct V as (_ & _ & _ & P); exact P).
  destruct m as [m| | |].
  - destruct (mean_polar _ _ _ _ V E) as (M & Hr & C & S). rewrite wsum_map in C, S. unfold reads_mean, in_unit, rad2data.
    assert (A : angle_of v (v * m / (2 * PI)) = m) by (unfold angle_of; field; split; lra).
    split.
    + split; [apply Rmult_le_pos; [apply Rmult_le_pos; lra|left; apply Rinv_0_lt_compat; lra]|].
      apply (Rmult_lt_reg_r (2 * PI)); [lra|]. replace (v * m / (2 * PI) * (2 * PI)) with (v * m) by (field; lra). apply Rmult_lt_compat_l; lra.
    + exists (Rsum w * r). split; [apply Rmult_lt_0_compat; lra|]. rewrite A. auto.
  - set (s := smp (map (angle_of v) d) (Some w)). change (circ_mean_and_r_s s = (NaN, r)) in E. pose proof (smp_pos _ _ V) as Ps. fold s in Ps.
    destruct (circ_mean_and_r_s_cases s) as [(L & _)|(_ & E')]; [|congruence]. rewrite circ_r_s_eq in L by auto.
    assert (T : wtotal s = Rsum w) by (unfold wtotal, s, smp; cbn [weights]; destruct V as (_ & Hl & _); rewrite combine_snd by (symmetry; exact Hl); reflexivity).
    rewrite T in L. unfold reads_mean, in_unit. cbv zeta.
    assert (Q : Rlen s <= / 1000000000000 * Rsum w).
    { apply (Rmult_le_compat_r (Rsum w)) in L; [|lra]. unfold Rdiv in L. rewrite Rmult_assoc, Rinv_l, Rmult_1_r in L by lra. exact L. }
    unfold Rlen, Csum, Ssum, s, smp in Q. cbn [weights] in Q. rewrite <- (wsum_eq cos), <- (wsum_eq sin), !wsum_map in Q. exact Q.
  - exfalso. unfold circ_mean_and_r, circ_mean_and_r_s in E. destruct (isclose12 _ _); discriminate.
  - exfalso. unfold circ_mean_and_r, circ_mean_and_r_s in E. destruct (isclose12 _ _); discriminate.
Qed.
Lemma summary_reads x g v w s : cycle_of (a_unit g) (a_cycle g) v -> 0 < v -> a_bins g = None -> a_rotate g = None ->
  (a_w g = Some w \/ a_w g = None /\ w = map (fun _ => 1) (a_data g)) -> Forall (fun y => 0 <= y) w -> summary x g = Ok s ->
  s_unit s = a_unit g /\ (s_grouped s = true <-> a_w g <> None) /\ IZR (s_n s) <= Rsum w < IZR (s_n s) + 1 /\ reads_mean v (a_data g) w (s_mean s) /\
  s_pval s = rayleigh_p (IZR (s_n s)) (s_r s) /\ s_mark s = significance_code (s_pval s) /\
  (s_mean_ci s <> None -> s_pval s < 5/100 /\ s_ci_method s <> None) /\ (s_median_ci s <> None -> a_w g = None /\ s_median s <> NaN).
Proof.
  intros Hc Hv Eb Er Hw Hp E. destruct (summary_inv x g s E) as (o & k & Eo & R).
  destruct (circular_inv _ _ _ _ Eo) as (p & a0 & I1 & I2 & I3 & I4 & I5 & I6 & I7 & I8 & I9 & I10 & I11 & I12 & I13 & I14 & I15 & I16 & I17 & I18 & _ & _ & I21 & I22).
  rewrite (cycle_full _ _ _ Hc) in I1. injection I1 as I1. rewrite <- I1, Er in I2. cbn in I2. injection I2 as I2.
  assert (I2' : a0 = map (angle_of v) (a_data g)) by (rewrite <- I2; reflexivity). clear I2. rewrite Eb in I3.
  assert (P : p_alpha p = map (angle_of v) (a_data g) /\ p_w p = w /\ length w = length (map (angle_of v) (a_data g)) /\ (p_grouped p = true <-> a_w g <> None)).
  { subst a0. destruct Hw as [Ew|(Ew & ->)]; rewrite Ew in *.
    - destruct (prepare_w _ _ _ I3) as (A & B & C & _). repeat split; auto; try discriminate.
      intros _. unfold prepare in I3. rewrite C, Nat.eqb_refl in I3. cbn [negb] in I3. destruct w; [discriminate|].
      destruct (list_min _); [|discriminate]. cbn in I3. injection I3 as <-. reflexivity.
    - cbn in I3. injection I3 as <-. cbn. rewrite !map_length. split; [reflexivity|]. split; [unfold ones; rewrite map_map; reflexivity|]. split; [reflexivity|].
      split; [discriminate|congruence]. }
  destruct P as (P1 & P2 & P3 & P4). rewrite P1, P2 in *.
  unfold repr in R.
  assert (R' : exists md, match o_median o with MNaN => Ok NaN | MOne m => Ok (Fin (rad2data m (Some (o_cycle o)))) | MMany _ => Err TypeError end = Ok md) by (destruct (o_median o); cbn in R; eauto; discriminate).
  destruct R' as (md & Em). rewrite Em in R. cbn [bind] in R. injection R as <-. cbn.
  assert (Sn : (0 < trunc (Rsum w))%Z) by (rewrite <- I10; exact I13).
  assert (Sw : 0 <= Rsum w) by (clear - Hp; induction Hp; [rewrite Rsum_nil; lra|rewrite Rsum_cons; lra]).
  assert (Sw' : 0 < Rsum w) by (pose proof (trunc_spec _ Sw); apply IZR_lt in Sn; lra).
  split; [reflexivity|]. split; [rewrite I7; exact P4|]. split; [rewrite I10; apply trunc_spec; exact Sw|]. split.
  { rewrite <- I1, I11. apply (mean_reads v (a_data g) w _ (snd (circ_mean_and_r (map (angle_of v) (a_data g)) (Some w)))); [exact Hv| |apply surjective_pairing].
    split; [|split; [exact P3|split; [exact Hp|exact Sw']]]. intros Z. rewrite Z in P3. destruct w; [rewrite Rsum_nil in Sw'; lra|discriminate]. }
  split; [exact I15|]. split; [reflexivity|]. split.
  - intros N. destruct (o_method o) as [me|]; [|exfalso; injection I18 as I18; rewrite <- I18 in N; apply N; reflexivity].
    destruct (Rltb_spec (o_pval o) (5/100)); [split; [assumption|discriminate]|]. exfalso. injection I18 as I18. rewrite <- I18 in N. apply N. reflexivity.
  - intros N. destruct (o_grouped o) eqn:G.
    + exfalso. injection I22 as I22. rewrite <- I22 in N. apply N. reflexivity.
    + split.
      * destruct (a_w g) eqn:Ew; [|reflexivity]. exfalso. assert (true = false); [|discriminate]. rewrite I7. symmetry. apply P4. discriminate.
      * intros Z. subst md. destruct (o_median o); try discriminate. injection I22 as I22. rewrite <- I22 in N. apply N. reflexivity.
Qed.

(** * Several medians of grouped data *)
Lemma averaged alpha w me am m : circ_median alpha w me true am = Ok m -> forall l, m <> MMany l.
Proof.
  unfold circ_median. destruct (isclose12 _ _).
  - destruct (nth_err alpha 0); [|discriminate]. cbn. intros E l Z. congruence.
  - destruct (if negb _ then _ else _) as [m0|e]; [|discriminate]. cbn [bind].
    assert (A : forall f l, med_mod (average m0 f) <> MMany l).
    { intros f l. unfold average. destruct m0 as [|a|l']; cbn; try discriminate; repeat (match goal with |- context [match ?e with _ => _ end] => destruct e; cbn; try discriminate end). }
    destruct (String.eqb am "all"); [cbn; intros E l Z; apply (A (fun l => l) l); congruence|].
    destruct (String.eqb am "unique"); [cbn; intros E l Z; apply (A unique l); congruence|discriminate].
Qed.
(** The summary of an object fails only for several medians of grouped data. *)
Lemma summary_total x g o k e : circular x g = Ok (o, k) -> summary x g = Err e -> e = TypeError /\ km_average (a_median g) = false /\ o_grouped o = true /\ exists l, o_median o = MMany l.
Proof.
  intros E. unfold summary. rewrite E. cbn [bind fst]. unfold repr.
  destruct (circular_inv _ _ _ _ E) as (p & a0 & _ & _ & _ & _ & _ & _ & I7 & _ & _ & _ & _ & _ & _ & _ & _ & _ & _ & _ & _ & _ & I21 & I22).
  destruct (o_median o) as [|m|l] eqn:M; cbn [bind]; try discriminate. intros F. injection F as <-. split; [reflexivity|].
  split; [destruct (km_average (a_median g)); [exfalso; exact (averaged _ _ _ _ _ I21 l eq_refl)|reflexivity]|].
  split; [destruct (o_grouped o); [reflexivity|discriminate]|eauto].
Qed.
Definition three_equal : args := with_median (weighted [0; 0; 90] [1; 1; 1] "degree") all_medians.
Lemma grouped_many x : exists o, circular x three_equal = Ok (o, None) /\ o_median o = MMany [0; 0] /\ o_grouped o = true.
Proof.
  set (g := three_equal). pose proof PI_RGT_0.
  assert (Ea : to_alpha (a_data g) 360 (a_rotate g) = Ok [0; 0; PI / 2]).
  { cbn. unfold data2rad. repeat (f_equal; try field). }
  assert (Hv : valid_sample [0; 0; PI / 2] (Some [1; 1; 1])).
  { split; [discriminate|]. split; [reflexivity|]. split; [repeat constructor; lra|]. rewrite !Rsum_cons, Rsum_nil. lra. }
  assert (Ep : exists b bs, prepare [0; 0; PI / 2] (a_w g) (a_bins g) = Ok {| p_alpha := [0; 0; PI / 2]; p_w := [1; 1; 1]; p_grouped := true; p_bin := b; p_bounds := bs |}).
  { unfold prepare. cbn [g three_equal with_median weighted a_bins a_w List.length Nat.eqb negb diff list_min bind]. eauto. }
  destruct Ep as (b & bs & Ep).
  assert (T : trunc (Rsum [1; 1; 1]) = 3%Z).
  { rewrite !Rsum_cons, Rsum_nil. replace (1 + (1 + (1 + 0))) with (IZR 3) by lra. apply trunc_IZR. lia. }
  destruct (circular_run x g 360 _ _ eq_refl Ea Ep) as (kp & ray & s & s0 & _ & ->); cbn [p_alpha p_w p_grouped p_bin p_bounds].
  - rewrite T. lia.
  - apply circ_r_range, Hv.
  - cbv zeta. rewrite T. change (a_mean_ci g) with (@None kdict). rewrite choose_small by lia. cbn [bind].
    change (circ_median [0; 0; PI / 2] (Some [1; 1; 1]) (km_method (a_median g)) (km_average (a_median g)) (km_average_method (a_median g)))
      with (circ_median [0; 0; PI / 2] None (Some "deviation") false "all"). rewrite two_medians. cbn [bind].
    eexists. split; [reflexivity|]. split; reflexivity.
Qed.
Lemma many_fails x : exists o, circular x three_equal = Ok (o, None) /\ summary x three_equal = Err TypeError.
Proof.
  destruct (grouped_many x) as (o & E & M & _). exists o. split; [exact E|]. unfold summary. rewrite E. cbn [bind fst]. unfold repr. rewrite M. reflexivity.
Qed.
(** * The method of the mean's interval *)
Lemma method_alone x : exists g s, summary x g = Ok s /\ s_ci_method s = Some "bootstrap" /\ s_mean_ci s = None.
Proof.
  set (d := {| kd_method := None; kd_ci := None |}). destruct (single_any x (ask d) 360) as (o & k & E); try reflexivity.
  destruct (mean_ci_options x (ask d) d o k eq_refl E) as (_ & _ & M).
  destruct (circular_inv _ _ _ _ E) as (p & a0 & I1 & I2 & I3 & I4 & I5 & I6 & I7 & I8 & I9 & I10 & I11 & I12 & I13 & I14 & I15 & I16 & I17 & I18 & _ & _ & I21 & I22).
  destruct (summary x (ask d)) as [s|e] eqn:S.
  - exists (ask d), s. split; [exact S|]. destruct (summary_inv x _ s S) as (o' & k' & E' & R). assert (o' = o) by congruence. subst o'.
    unfold repr in R.
    assert (R' : exists md, match o_median o with MNaN => Ok NaN | MOne m => Ok (Fin (rad2data m (Some (o_cycle o)))) | MMany _ => Err TypeError end = Ok md) by (destruct (o_median o); cbn in R; eauto; discriminate).
    destruct R' as (md & Em). rewrite Em in R. cbn [bind] in R. injection R as <-. cbn.
    split; [exact M|]. cbn in I2, I3. injection I2 as I2. subst a0. injection I3 as <-. cbn [p_w p_alpha] in I10, I12.
    assert (Z : data2rad 0 (o_cycle o) = 0) by (unfold data2rad, Rdiv; ring). rewrite Z in I12.
    pose proof PI_RGT_0. destruct (one_dir_mean [0] (ones [0]) 0 (ones_valid [0] ltac:(discriminate))) as (R1' & _); [lra| | |].
    { exists 1. split; [left; reflexivity|lra]. }
    { intros b Hb. apply (observed_repeat 0 1) in Hb. subst. apply same_dir_refl. }
    assert (R1 : o_r o = 1) by (rewrite I12; exact R1').
    assert (N1 : o_n o = 1%Z) by (rewrite I10; transitivity (trunc (Rsum (ones [0]))); [reflexivity|rewrite ones_total, trunc_INR; reflexivity]).
    rewrite N1, R1 in I15. pose proof rayleigh_one. change (IZR 1) with 1 in I15. rewrite M in I18. cbn [kd_method d] in I18.
    destruct (Rltb_spec (o_pval o) (5/100)); [lra|]. injection I18 as <-. reflexivity.
  - destruct (summary_total x _ o k e E S) as (_ & A & _). discriminate.
Qed.
Lemma default_method x g w s : a_mean_ci g = None -> 0 < x_z x <= 2 -> a_bins g = None ->
  (a_w g = Some w \/ a_w g = None /\ w = map (fun _ => 1) (a_data g)) -> Forall (fun y => 0 <= y) w -> summary x g = Ok s -> s_mean s <> NaN ->
  (s_ci_method s <> None <-> s_mean_ci s <> None).
Proof.
  intros Ek Hz Eb Hw Hp E Hm. destruct (summary_inv x g s E) as (o & k & Eo & R).
  destruct (circular_inv _ _ _ _ Eo) as (p & a0 & I1 & I2 & I3 & I4 & I5 & I6 & I7 & I8 & I9 & I10 & I11 & I12 & I13 & I14 & I15 & I16 & I17 & I18 & _ & _ & I21 & I22).
  unfold repr in R.
  assert (R' : exists md, match o_median o with MNaN => Ok NaN | MOne m => Ok (Fin (rad2data m (Some (o_cycle o)))) | MMany _ => Err TypeError end = Ok md) by (destruct (o_median o); cbn in R; eauto; discriminate).
  destruct R' as (md & Em). rewrite Em in R. cbn [bind] in R. injection R as <-. cbn in *.
  assert (P : p_w p = w /\ length w = length (p_alpha p)).
  { rewrite Eb in I3. destruct Hw as [Ew|(Ew & ->)]; rewrite Ew in I3.
    - destruct (prepare_w _ _ _ I3) as (A & B & C & _). rewrite A. auto.
    - cbn in I3. injection I3 as <-. cbn.
      assert (L : length a0 = length (a_data g)).
      { unfold to_alpha in I2. destruct (a_rotate g) as [t|]; [|injection I2 as <-; apply map_length].
        unfold rotate_data in I2. cbn in I2. injection I2 as <-. rewrite !map_length. reflexivity. }
      split; [|rewrite map_length; auto]. unfold ones. clear - L. revert L. generalize (a_data g). induction a0 as [|a a0 IH]; intros [|d l] L; try discriminate; [reflexivity|].
      cbn. f_equal. apply IH. cbn in L. lia. }
  destruct P as [P1 P2]. rewrite Ek in I17. split.
  - intros N.
    assert (Mf : exists m, o_mean o = Fin m).
    { destruct (o_mean o) eqn:M; [eauto|exfalso; apply Hm; reflexivity| |]; exfalso; unfold circ_mean_and_r, circ_mean_and_r_s in I11; destruct (isclose12 _ _); cbn in I11; discriminate I11. }
    destruct Mf as (m & Mf).
    assert (Pv : o_pval o < 5/100) by (unfold choose_ci in I17; destruct (Rltb_spec (o_pval o) (5/100)); [assumption|]; cbn in I17; injection I17 as I17 _ _; congruence).
    destruct (Z_le_gt_dec 25 (o_n o)) as [L|L].
    + destruct (large_sample x g o k m Ek Hz) as (lb & ub & C & _); auto; [rewrite I6, P1; exact Hp|rewrite I6, P1, I5; exact P2|]. rewrite C. discriminate.
    + assert (Mb : o_method o = Some "bootstrap").
      { unfold choose_ci in I17. destruct (Rltb_spec (o_pval o) (5/100)); [|lra]. destruct (Z.leb_spec 25 (o_n o)); [lia|].
        destruct (Z.leb_spec 8 (o_n o)), (Z.ltb_spec (o_n o) 25); cbn in I17; injection I17 as I17 _ _; congruence. }
      rewrite Mb in I18. destruct (Rltb_spec (o_pval o) (5/100)); [|lra]. unfold mean_ci in I18. cbn [String.eqb Ascii.eqb Bool.eqb] in I18.
      destruct (ci_bootstrap _ _ _) as [lu|e]; [|discriminate]. cbn [bind] in I18. injection I18 as I18. rewrite <- I18. discriminate.
  - intros N Z. rewrite Z in I18. injection I18 as I18. rewrite <- I18 in N. apply N. reflexivity.
Qed.

(** * The remaining lines *)
Lemma summary_rest x g v w s : cycle_of (a_unit g) (a_cycle g) v -> 0 < v -> a_bins g = None -> a_rotate g = None ->
  (a_w g = Some w \/ a_w g = None /\ w = map (fun _ => 1) (a_data g)) -> summary x g = Ok s ->
  let alpha := map (angle_of v) (a_data g) in
  s_clusters s = None /\ s_r s = circ_r alpha (Some w) /\
  (s_r s < 1 -> s_skewness s = Fin (circ_skewness (smp alpha (Some w))) /\ s_kurtosis s = Fin (circ_kurtosis (smp alpha (Some w)))) /\
  (s_r s = 1 -> s_skewness s = NaN /\ s_kurtosis s = NaN) /\
  (forall lv lo up, s_median_ci s = Some (lv, lo, up) -> exists m, s_median s = Fin m /\
    median_ci_full alpha (angle_of v m) (x_z x) (95/100) = Ok (Some (angle_of v lo, angle_of v up), lv)).
Proof.
  intros Hc Hv Eb Er Hw E. cbv zeta. destruct (summary_inv x g s E) as (o & k & Eo & R).
  destruct (circular_inv _ _ _ _ Eo) as (p & a0 & I1 & I2 & I3 & I4 & I5 & I6 & I7 & I8 & I9 & I10 & I11 & I12 & I13 & I14 & I15 & I16 & I17 & I18 & _ & _ & I21 & I22).
  rewrite (cycle_full _ _ _ Hc) in I1. injection I1 as I1. rewrite <- I1, Er in I2. cbn in I2. injection I2 as I2.
  assert (I2' : a0 = map (angle_of v) (a_data g)) by (rewrite <- I2; reflexivity). clear I2. rewrite Eb in I3.
  assert (P : p_alpha p = map (angle_of v) (a_data g) /\ p_w p = w).
  { subst a0. destruct Hw as [Ew|(Ew & ->)]; rewrite Ew in *.
    - destruct (prepare_w _ _ _ I3) as (A & B & C & _). auto.
    - cbn in I3. injection I3 as <-. cbn. split; [reflexivity|]. unfold ones. rewrite map_map. reflexivity. }
  destruct P as (P1 & P2). rewrite P1, P2 in *. pose proof PI_RGT_0 as Hp.
  assert (A : forall y, angle_of v (rad2data y (Some v)) = y) by (intros y; unfold angle_of, rad2data; field; split; lra).
  unfold repr in R. unfold moment_ratio in R. rewrite I5, I6, <- I1 in R. set (alpha := map (angle_of v) (a_data g)) in *.
  destruct (o_median o) as [|m|l]; cbn [bind] in R; try discriminate; injection R as <-; cbn; (split; [reflexivity|]; split; [exact I12|]; split; [intros L; destruct (Reqb_spec (o_r o) 1); [lra|split; reflexivity]|]; split; [intros L; destruct (Reqb_spec (o_r o) 1); [split; reflexivity|contradiction]|]); intros lv lo up.
  - destruct (o_grouped o); injection I22 as <-; discriminate.
  - destruct (o_grouped o); [injection I22 as <-; discriminate|]. rewrite I5 in I22.
    destruct (circ_median_ci alpha m (x_z x)) as [c|e] eqn:Ec; [|discriminate]. cbn [bind] in I22. injection I22 as <-. destruct c as [[lo' up']|]; [|discriminate].
    intros Z. injection Z as <- <- <-. exists (rad2data m (Some v)). split; [reflexivity|]. unfold median_ci_full. change (v * m / (2 * PI)) with (rad2data m (Some v)). change (v * lo' / (2 * PI)) with (rad2data lo' (Some v)). change (v * up' / (2 * PI)) with (rad2data up' (Some v)). rewrite !A, Ec. cbn [bind]. reflexivity.
Qed.
