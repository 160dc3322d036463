From Verif Require Import Prelude NpModel NpProofs CircleSpec UtilsModel UtilsSpec.

(** * angmod *)
Lemma angmod_val_eq rad b0 b1 : b0 < b1 ->
  angmod_val rad b0 b1 = pymod (rad - b0) (b1 - b0) + b0.
Proof.
  intros H. unfold angmod_val.
  assert (Hs : 0 < b1 - b0) by lra.
  set (m := b1 - b0) in *.
  replace (pymod (rad - b0) m + m) with (pymod (rad - b0) m + m * IZR 1) by (simpl; lra).
  rewrite pymod_add by exact Hs.
  rewrite (pymod_small (pymod (rad - b0) m)) by (apply pymod_range; exact Hs).
  pose proof (pymod_range (rad - b0) m Hs).
  destruct (Reqb_spec (pymod (rad - b0) m + b0) b1) as [E|E]; [unfold m in *; lra|reflexivity].
Qed.
Lemma angmod0_eq x : angmod0 x = pymod x (2 * PI).
Proof.
  unfold angmod0. rewrite angmod_val_eq by (pose proof PI2_pos; lra).
  rewrite !Rminus_0_r, Rplus_0_r. reflexivity.
Qed.
Lemma angmod0_range x : 0 <= angmod0 x < 2 * PI.
Proof. rewrite angmod0_eq. apply pymod_range, PI2_pos. Qed.
Lemma angmod0_same_dir x : same_dir (angmod0 x) x.
Proof. rewrite angmod0_eq. apply pymod_same_dir. Qed.
Lemma angmod0_eq_iff a b : angmod0 a = angmod0 b <-> same_dir a b.
Proof. rewrite !angmod0_eq. symmetry. apply same_dir_pymod. Qed.
Lemma angmod0_unique x y : 0 <= y < 2 * PI -> same_dir y x -> angmod0 x = y.
Proof.
  intros Hy H. apply (same_dir_unique 0).
  - pose proof (angmod0_range x); lra.
  - lra.
  - apply same_dir_trans with x; [apply angmod0_same_dir|apply same_dir_sym; exact H].
Qed.

Lemma angmod_errors_l rad bounds :
  (exists e, angmod rad bounds = Err e) <->
  (forall b0 b1, bounds = [b0; b1] -> b1 <= b0).
Proof.
  split.
  - intros [e H] b0 b1 ->. unfold angmod in H.
    destruct (Rleb_spec b1 b0); [assumption|discriminate].
  - intros H. unfold angmod.
    destruct bounds as [|b0 [|b1 [|b2 t]]]; eauto.
    specialize (H b0 b1 eq_refl).
    destruct (Rleb_spec b1 b0); [eauto|contradiction].
Qed.
Lemma angmod_error_kind rad bounds e : angmod rad bounds = Err e -> e = ValueError.
Proof.
  unfold angmod. destruct bounds as [|b0 [|b1 [|b2 t]]]; try congruence.
  destruct (Rleb b1 b0); congruence.
Qed.
Lemma angmod_rep_l rad lo hi : lo < hi ->
  exists y, angmod rad [lo; hi] = Ok y /\ is_rep lo (hi - lo) rad y /\
            forall z, is_rep lo (hi - lo) rad z -> z = y.
Proof.
  intros H. exists (pymod (rad - lo) (hi - lo) + lo).
  assert (R0 : is_rep lo (hi - lo) rad (pymod (rad - lo) (hi - lo) + lo)).
  { split.
    - pose proof (pymod_range (rad - lo) (hi - lo)). lra.
    - destruct (pymod_cong (rad - lo) (hi - lo)) as [k E]. exists k. lra. }
  split; [|split].
  - unfold angmod. destruct (Rleb_spec hi lo); [lra|]. f_equal. apply angmod_val_eq, H.
  - exact R0.
  - intros z Hz. exact (rep_unique _ _ _ _ _ Hz R0).
Qed.
Lemma angmod_idem_l rad lo hi y : angmod rad [lo; hi] = Ok y -> angmod y [lo; hi] = Ok y.
Proof.
  intros H. assert (L : lo < hi).
  { unfold angmod in H. destruct (Rleb_spec hi lo); [discriminate|lra]. }
  destruct (angmod_rep_l rad lo hi L) as (y1 & E1 & R1 & U1).
  rewrite E1 in H. injection H as ->.
  destruct (angmod_rep_l y lo hi L) as (y2 & E2 & R2 & U2).
  rewrite E2. f_equal. symmetry. apply U2.
  destruct R1 as [Rg _]. split; [exact Rg|exists 0%Z; simpl; lra].
Qed.
Lemma angmod_periodic_l rad lo hi (k : Z) :
  angmod (rad + (hi - lo) * IZR k) [lo; hi] = angmod rad [lo; hi].
Proof.
  unfold angmod. destruct (Rleb_spec hi lo) as [|L]; [reflexivity|]. f_equal.
  rewrite !angmod_val_eq by lra.
  replace (rad + (hi - lo) * IZR k - lo) with (rad - lo + (hi - lo) * IZR k) by ring.
  rewrite pymod_add by lra. reflexivity.
Qed.

(** * angular_distance *)
Lemma arc_dist_unique a b d1 d2 : is_arc_dist a b d1 -> is_arc_dist a b d2 -> d1 = d2.
Proof.
  intros [[k1 E1] M1] [[k2 E2] M2].
  specialize (M1 k2). specialize (M2 k1). lra.
Qed.
Lemma turns_abs_lower c (j : Z) : 0 <= c < 2 * PI ->
  Rmin c (2 * PI - c) <= Rabs (c + 2 * PI * IZR j).
Proof.
  intros H. pose proof PI2_pos as Hp.
  destruct (Z_le_gt_dec 0 j) as [Hj|Hj].
  - assert (0 <= IZR j) by (apply IZR_le; exact Hj).
    assert (0 <= 2 * PI * IZR j) by (apply Rmult_le_pos; lra).
    rewrite Rabs_right by lra. pose proof (Rmin_l c (2 * PI - c)). lra.
  - assert (IZR j <= -1) by (apply IZR_le; lia).
    assert (2 * PI * IZR j <= 2 * PI * -1) by (apply Rmult_le_compat_l; lra).
    rewrite Rabs_left by lra. pose proof (Rmin_r c (2 * PI - c)). lra.
Qed.
Lemma angular_distance_arc a b : is_arc_dist a b (angular_distance a b).
Proof.
  unfold angular_distance. rewrite angmod0_eq.
  pose proof (pymod_range (a - b) (2 * PI) PI2_pos) as Rg.
  destruct (pymod_cong (a - b) (2 * PI)) as [k E].
  set (c := pymod (a - b) (2 * PI)) in *.
  split.
  - unfold Rmin. destruct (Rle_dec c (2 * PI - c)).
    + exists (- k)%Z. rewrite opp_IZR. rewrite Rabs_right; lra.
    + exists (- k - 1)%Z. rewrite minus_IZR, opp_IZR. rewrite Rabs_left; lra.
  - intros j. replace (a - b + 2 * PI * IZR j) with (c + 2 * PI * IZR (k + j)).
    + apply turns_abs_lower. exact Rg.
    + rewrite plus_IZR. lra.
Qed.
Lemma angular_distance_range a b : 0 <= angular_distance a b <= PI.
Proof.
  unfold angular_distance. rewrite angmod0_eq.
  pose proof (pymod_range (a - b) (2 * PI) PI2_pos) as Rg.
  unfold Rmin. destruct (Rle_dec _ _); lra.
Qed.
Lemma angular_distance_sym a b : angular_distance a b = angular_distance b a.
Proof.
  apply (arc_dist_unique a b); [apply angular_distance_arc|].
  destruct (angular_distance_arc b a) as [[k E] M]. split.
  - exists (- k)%Z. rewrite E, opp_IZR. rewrite <- Rabs_Ropp. f_equal. lra.
  - intros j. specialize (M (- j)%Z). rewrite opp_IZR in M.
    rewrite <- Rabs_Ropp. replace (- (a - b + 2 * PI * IZR j)) with (b - a + 2 * PI * - IZR j) by lra.
    exact M.
Qed.
Lemma angular_distance_0 a b : angular_distance a b = 0 <-> same_dir a b.
Proof.
  destruct (angular_distance_arc a b) as [[k E] M]. split.
  - intros H. rewrite H in E. symmetry in E. assert (E0 : a - b + 2 * PI * IZR k = 0) by (destruct (Req_dec (a - b + 2 * PI * IZR k) 0) as [|N]; [assumption|apply Rabs_pos_lt in N; lra]). exists (- k)%Z. rewrite opp_IZR. lra.
  - intros [j F]. specialize (M (- j)%Z). rewrite opp_IZR in M.
    replace (a - b + 2 * PI * - IZR j) with 0 in M by lra. rewrite Rabs_R0 in M.
    pose proof (angular_distance_range a b). lra.
Qed.
Lemma angular_distance_triangle a b c :
  angular_distance a c <= angular_distance a b + angular_distance b c.
Proof.
  destruct (angular_distance_arc a b) as [[k E] _].
  destruct (angular_distance_arc b c) as [[j F] _].
  destruct (angular_distance_arc a c) as [_ M].
  specialize (M (k + j)%Z). rewrite plus_IZR in M.
  rewrite E, F. eapply Rle_trans; [exact M|].
  replace (a - c + 2 * PI * (IZR k + IZR j))
    with ((a - b + 2 * PI * IZR k) + (b - c + 2 * PI * IZR j)) by lra.
  apply Rabs_triang.
Qed.
Lemma angular_distance_dir a a' b b' :
  same_dir a a' -> same_dir b b' -> angular_distance a b = angular_distance a' b'.
Proof.
  intros H K. unfold angular_distance.
  replace (angmod0 (a' - b')) with (angmod0 (a - b)); [reflexivity|].
  apply angmod0_eq_iff, same_dir_sub; assumption.
Qed.
Lemma angular_distance_rot a b t : angular_distance (a + t) (b + t) = angular_distance a b.
Proof.
  unfold angular_distance. replace (a + t - (b + t)) with (a - b) by ring. reflexivity.
Qed.
Lemma angular_distance_reflect a b : angular_distance (- a) (- b) = angular_distance a b.
Proof.
  rewrite angular_distance_sym. unfold angular_distance.
  replace (- b - - a) with (a - b) by ring. reflexivity.
Qed.
Lemma angular_distance_cos a b : cos (angular_distance a b) = cos (a - b).
Proof.
  destruct (angular_distance_arc a b) as [[k E] _]. rewrite E.
  assert (H : forall x, cos (Rabs x) = cos x).
  { intros x. unfold Rabs. destruct (Rcase_abs x); [apply cos_neg|reflexivity]. }
  rewrite H, cos_turns. reflexivity.
Qed.

(** * is_within_circular_range *)
Lemma ccw_iff v lb ub :
  on_ccw_arc v lb ub <-> pymod (v - lb) (2 * PI) <= pymod (ub - lb) (2 * PI).
Proof.
  pose proof PI2_pos as Hp. split.
  - intros (t & u & Ht & Hu & [k Hv] & [j Hw]).
    rewrite (pymod_unique (v - lb) (2 * PI) t), (pymod_unique (ub - lb) (2 * PI) u); try lra.
    + exists j. lra.
    + exists k. lra.
  - intros H.
    exists (pymod (v - lb) (2 * PI)), (pymod (ub - lb) (2 * PI)).
    pose proof (pymod_range (v - lb) (2 * PI) Hp).
    pose proof (pymod_range (ub - lb) (2 * PI) Hp).
    destruct (pymod_cong (v - lb) (2 * PI)) as [k E].
    destruct (pymod_cong (ub - lb) (2 * PI)) as [j F].
    repeat split; try lra.
    + exists k. lra.
    + exists j. lra.
Qed.
Lemma pymod_sub_cases v l :
  pymod (v - l) (2 * PI) =
  if Rle_dec (pymod l (2 * PI)) (pymod v (2 * PI))
  then pymod v (2 * PI) - pymod l (2 * PI)
  else pymod v (2 * PI) - pymod l (2 * PI) + 2 * PI.
Proof.
  pose proof PI2_pos as Hp.
  pose proof (pymod_range v (2 * PI) Hp). pose proof (pymod_range l (2 * PI) Hp).
  destruct (pymod_cong v (2 * PI)) as [k E]. destruct (pymod_cong l (2 * PI)) as [j F].
  destruct (Rle_dec _ _).
  - apply pymod_unique; [lra|]. exists (k - j)%Z. rewrite minus_IZR. lra.
  - apply pymod_unique; [lra|]. exists (k - j - 1)%Z. rewrite !minus_IZR. lra.
Qed.
Lemma is_within_ccw v lb ub :
  is_within_circular_range v lb ub = true <-> on_ccw_arc v lb ub.
Proof.
  rewrite ccw_iff, !pymod_sub_cases. unfold is_within_circular_range.
  pose proof PI2_pos as Hp.
  pose proof (pymod_range v (2 * PI) Hp). pose proof (pymod_range lb (2 * PI) Hp).
  pose proof (pymod_range ub (2 * PI) Hp).
  set (V := pymod v (2 * PI)) in *. set (L := pymod lb (2 * PI)) in *.
  set (U := pymod ub (2 * PI)) in *.
  destruct (Rleb_spec L U); destruct (Rleb_spec L V); destruct (Rleb_spec V U);
    destruct (Rle_dec L V); destruct (Rle_dec L U); simpl; split; intros; try lra;
    try discriminate; auto.
Qed.
Lemma is_within_dir v v' lb lb' ub ub' :
  same_dir v v' -> same_dir lb lb' -> same_dir ub ub' ->
  is_within_circular_range v lb ub = is_within_circular_range v' lb' ub'.
Proof.
  intros H1 H2 H3. unfold is_within_circular_range.
  apply same_dir_pymod in H1. apply same_dir_pymod in H2. apply same_dir_pymod in H3.
  rewrite H1, H2, H3. reflexivity.
Qed.
Lemma bool_eq_iff (a b : bool) : (a = true <-> b = true) -> a = b.
Proof. destruct a, b; intuition congruence. Qed.
Lemma is_within_rot v lb ub t :
  is_within_circular_range (v + t) (lb + t) (ub + t) = is_within_circular_range v lb ub.
Proof.
  apply bool_eq_iff. rewrite !is_within_ccw, !ccw_iff.
  replace (v + t - (lb + t)) with (v - lb) by ring.
  replace (ub + t - (lb + t)) with (ub - lb) by ring. reflexivity.
Qed.
Lemma is_within_complement v lb ub :
  ~ same_dir v lb -> ~ same_dir v ub -> ~ same_dir lb ub ->
  is_within_circular_range v ub lb = negb (is_within_circular_range v lb ub).
Proof.
  intros H1 H2 H3. unfold is_within_circular_range.
  rewrite same_dir_pymod in H1, H2, H3.
  set (V := pymod v (2 * PI)) in *. set (L := pymod lb (2 * PI)) in *.
  set (U := pymod ub (2 * PI)) in *.
  destruct (Rleb_spec L U); destruct (Rleb_spec U L); destruct (Rleb_spec L V);
    destruct (Rleb_spec V U); destruct (Rleb_spec U V); destruct (Rleb_spec V L);
    simpl; try reflexivity; exfalso; try lra;
    first [apply H1; lra | apply H2; lra | apply H3; lra].
Qed.
Lemma is_within_ends lb ub :
  is_within_circular_range lb lb ub = true /\ is_within_circular_range ub lb ub = true.
Proof.
  rewrite !is_within_ccw, !ccw_iff. split; [|lra].
  rewrite (Rminus_diag_eq lb lb) by reflexivity. rewrite pymod_small by (pose proof PI2_pos; lra).
  pose proof (pymod_range (ub - lb) (2 * PI) PI2_pos). lra.
Qed.

(** * data2rad / rad2data *)
Lemma rad2data_data2rad x k : k <> 0 -> rad2data (data2rad x k) (Some k) = x.
Proof. intros H. unfold rad2data, data2rad. pose proof PI_pos. field. lra. Qed.
Lemma data2rad_rad2data x k : k <> 0 -> data2rad (rad2data x (Some k)) k = x.
Proof. intros H. unfold rad2data, data2rad. pose proof PI_pos. field. lra. Qed.
Lemma data2rad_cycles x k (m : Z) : k <> 0 ->
  data2rad (x + k * IZR m) k = data2rad x k + 2 * PI * IZR m.
Proof. intros H. unfold data2rad. field. exact H. Qed.
Lemma data2rad_add x y k : data2rad (x + y) k = data2rad x k + data2rad y k.
Proof. unfold data2rad, Rdiv. ring. Qed.
Lemma data2rad_cycle k : k <> 0 -> data2rad k k = 2 * PI.
Proof. intros H. unfold data2rad. field. exact H. Qed.

(** * rotate_data *)
Lemma unit_cycle_spec unit K : unit_cycle unit = Some K <-> cycle_of unit K.
Proof.
  unfold unit_cycle, cycle_of.
  destruct (String.eqb_spec unit "degree"); [subst; split; intros H|].
  { injection H as <-. auto. }
  { destruct H as [[_ ->]|[[H _]|[H _]]]; [reflexivity|discriminate|discriminate]. }
  destruct (String.eqb_spec unit "radian"); [subst; split; intros H|].
  { injection H as <-. auto. }
  { destruct H as [[H _]|[[_ ->]|[H _]]]; [discriminate|reflexivity|discriminate]. }
  destruct (String.eqb_spec unit "hour"); [subst; split; intros H|].
  { injection H as <-. auto. }
  { destruct H as [[H _]|[[H _]|[_ ->]]]; [discriminate|discriminate|reflexivity]. }
  split; [discriminate|]. intros [[H _]|[[H _]|[H _]]]; contradiction.
Qed.
Lemma cycle_pos unit K : cycle_of unit K -> 0 < K.
Proof. pose proof PI_pos. intros [[_ ->]|[[_ ->]|[_ ->]]]; lra. Qed.

Lemma rot_elem a x K : 0 < K ->
  is_rep 0 K (a + x) (rad2data (angmod0 (data2rad a K + data2rad x K)) (Some K)).
Proof.
  intros HK. pose proof PI_pos as Hp.
  rewrite <- data2rad_add.
  pose proof (angmod0_range (data2rad (a + x) K)) as Rg.
  destruct (angmod0_same_dir (data2rad (a + x) K)) as [k E].
  set (y := angmod0 (data2rad (a + x) K)) in *.
  unfold rad2data. split.
  - assert (F : K * y / (2 * PI) = (y / (2 * PI)) * K) by (field; lra). rewrite F.
    assert (0 <= y / (2 * PI)) by (apply Rmult_le_pos; [lra|left; apply Rinv_0_lt_compat; lra]).
    assert (y / (2 * PI) < 1) by (apply Rmult_lt_reg_r with (2 * PI); [lra|]; field_simplify; lra).
    split; nra.
  - exists (- k)%Z. rewrite opp_IZR, E. unfold data2rad. field. lra.
Qed.
Lemma rotate_data_spec alpha x unit K : cycle_of unit K ->
  exists out, rotate_data alpha x unit = Ok out /\
    Forall2 (fun a y => is_rep 0 K (a + x) y) alpha out.
Proof.
  intros HK. pose proof (cycle_pos _ _ HK) as Hpos.
  apply unit_cycle_spec in HK. unfold rotate_data. rewrite HK.
  eexists. split; [reflexivity|].
  induction alpha as [|a alpha IH]; simpl; constructor; auto. apply rot_elem, Hpos.
Qed.
Lemma rotate_data_unit_err alpha x unit :
  (forall K, ~ cycle_of unit K) <-> rotate_data alpha x unit = Err ValueError.
Proof.
  unfold rotate_data. destruct (unit_cycle unit) as [K|] eqn:E; split; intros H.
  - exfalso. apply (H K). apply unit_cycle_spec. exact E.
  - discriminate.
  - reflexivity.
  - intros K HK. apply unit_cycle_spec in HK. congruence.
Qed.
Lemma Forall2_rep_unique K alpha x out1 out2 :
  Forall2 (fun a y => is_rep 0 K (a + x) y) alpha out1 ->
  Forall2 (fun a y => is_rep 0 K (a + x) y) alpha out2 -> out1 = out2.
Proof.
  intros H. revert out2. induction H as [|a y al out H1 H2 IH]; intros out2 G; inversion G; subst.
  - reflexivity.
  - f_equal; [eapply rep_unique; eassumption|apply IH; assumption].
Qed.
Lemma rotate_data_compose alpha x y unit out :
  rotate_data alpha x unit = Ok out ->
  rotate_data out y unit = rotate_data alpha (x + y) unit.
Proof.
  intros H. destruct (unit_cycle unit) as [K|] eqn:E.
  2:{ unfold rotate_data in H. rewrite E in H. discriminate. }
  apply unit_cycle_spec in E.
  destruct (rotate_data_spec alpha x unit K E) as (o1 & E1 & F1).
  rewrite E1 in H. injection H as ->.
  destruct (rotate_data_spec out y unit K E) as (o2 & E2 & F2).
  destruct (rotate_data_spec alpha (x + y) unit K E) as (o3 & E3 & F3).
  rewrite E2, E3. f_equal. apply (Forall2_rep_unique K alpha (x + y)); [|exact F3].
  clear E1 E2 E3 F3 o3. revert o2 F2.
  induction F1 as [|a b al bl H1 H2 IH]; intros o2 F2; inversion F2; subst; constructor; auto.
  destruct H1 as [_ [k1 K1]]. destruct H3 as [R3 [k3 K3]].
  split; [exact R3|]. exists (k1 + k3)%Z. rewrite plus_IZR. lra.
Qed.
Lemma rotate_data_inverse alpha x unit out :
  rotate_data alpha x unit = Ok out ->
  rotate_data out (- x) unit = rotate_data alpha 0 unit.
Proof.
  intros H. rewrite (rotate_data_compose _ _ (- x) _ _ H). f_equal. ring.
Qed.
Lemma rotate_data_zero alpha unit K : cycle_of unit K ->
  (forall a, In a alpha -> 0 <= a < K) -> rotate_data alpha 0 unit = Ok alpha.
Proof.
  intros HK Hin. destruct (rotate_data_spec alpha 0 unit K HK) as (o & E & F).
  rewrite E. f_equal. apply (Forall2_rep_unique K alpha 0); [exact F|].
  clear E F. induction alpha as [|a al IH]; constructor.
  - split; [pose proof (Hin a (or_introl eq_refl)); lra|exists 0%Z; simpl; lra].
  - apply IH. intros b Hb. apply Hin. right; exact Hb.
Qed.

(** * significance_code *)
Lemma significance_thresholds p :
  (significance_code p = "***"%string <-> p < 1/1000) /\
  (significance_code p = "**"%string <-> 1/1000 <= p < 1/100) /\
  (significance_code p = "*"%string <-> 1/100 <= p < 5/100) /\
  (significance_code p = "."%string <-> 5/100 <= p < 1/10) /\
  (significance_code p = ""%string <-> 1/10 <= p).
Proof.
  unfold significance_code.
  destruct (Rltb_spec p (1/1000)); [repeat split; intros; try discriminate; try lra|].
  destruct (Rltb_spec p (1/100)); [repeat split; intros; try discriminate; try lra|].
  destruct (Rltb_spec p (5/100)); [repeat split; intros; try discriminate; try lra|].
  destruct (Rltb_spec p (1/10)); repeat split; intros; try discriminate; try lra.
Qed.
Lemma significance_antitone p q : p <= q ->
  (mark_rank (significance_code q) <= mark_rank (significance_code p))%nat.
Proof.
  intros H. unfold significance_code.
  destruct (Rltb_spec p (1/1000)); destruct (Rltb_spec q (1/1000));
  destruct (Rltb_spec p (1/100)); destruct (Rltb_spec q (1/100));
  destruct (Rltb_spec p (5/100)); destruct (Rltb_spec q (5/100));
  destruct (Rltb_spec p (1/10)); destruct (Rltb_spec q (1/10));
  try (exfalso; lra); cbn; lia.
Qed.
