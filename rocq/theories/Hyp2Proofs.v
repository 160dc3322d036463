(** V-test, one-sample test, Batschelet, binomial, chi-square and symmetry tests. *)
From Verif Require Import Prelude NpModel NpProofs CircleSpec UtilsModel UtilsProofs
  DescModel DescProofs DescSpec DescApi DescApi2 Desc2Model Desc2Spec ArcProofs Desc3Proofs Desc4Proofs
  Desc2Proofs Desc6Proofs HypModel HypSpec HypProofs.

(** ** V-test *)
Lemma angmod_pi_eq x : angmod_val x (- PI) PI = pymod (x + PI) (2 * PI) - PI.
Proof.
  rewrite angmod_val_eq by (pose proof PI_pos; lra).
  replace (x - - PI) with (x + PI) by ring. replace (PI - - PI) with (2 * PI) by ring. ring.
Qed.
Lemma angmod_pi_dir x : same_dir (angmod_val x (- PI) PI) x.
Proof.
  rewrite angmod_pi_eq. destruct (pymod_same_dir (x + PI)) as [k H]. exists k. lra.
Qed.
Lemma angmod_pi_range x : - PI <= angmod_val x (- PI) PI < PI.
Proof. rewrite angmod_pi_eq. pose proof (pymod_range (x + PI) (2 * PI) PI2_pos). lra. Qed.
Lemma v_stat_eq n r m a : v_stat n r m a = n * r * cos (m - a).
Proof. unfold v_stat. now rewrite (same_dir_cos _ _ (angmod_pi_dir (m - a))). Qed.

Lemma V_sample sf angle alpha w k r n : valid_sample alpha w -> sample_size alpha w = IZR k ->
  / 1000000000000 < circ_r alpha w ->
  let V := sample_sum (fun a => cos (a - angle)) alpha w in
  V_test sf angle (Some alpha) w None r n =
    Ok {| v_V := Fin V; v_u := Fin (V * sqrt (2 / IZR k)); v_pval := Fin (sf (V * sqrt (2 / IZR k))) |}.
Proof.
  intros Hv Hk Hr V. unfold V_test. rewrite (sample_args_ok _ _ Hv). cbn [bind fst snd].
  pose proof (eff_total _ _ Hv) as Hp. rewrite <- (sample_size_Rsum _ _ Hv), Hk in *.
  rewrite Rfloor_IZR. destruct (Z.leb_spec k 0) as [H|_]; [apply IZR_le in H; lra|].
  rewrite circ_mean_and_r_eff. unfold circ_mean_and_r. fold (smp alpha w).
  unfold circ_r in Hr. fold (smp alpha w) in Hr.
  destruct (circ_mean_and_r_s_cases (smp alpha w)) as [[H _]|[_ ->]]; [lra|]. cbn [fst snd bind].
  pose proof (circ_r_range _ _ Hv) as Rr. unfold circ_r in Rr. fold (smp alpha w) in Rr.
  destruct (Rleb_spec 0 (circ_r_s (smp alpha w))); [|lra].
  destruct (Rleb_spec (circ_r_s (smp alpha w)) 1); [|lra]. cbn [andb negb].
  assert (E : v_stat (IZR k) (circ_r_s (smp alpha w)) (mean_dir (smp alpha w)) angle = V).
  { unfold V. rewrite v_stat_eq, sample_sum_eq. rewrite (proj_mean _ _ (smp_pos _ _ Hv)) by lra.
    rewrite circ_r_s_eq by (apply smp_pos, Hv). rewrite <- sample_size_eq, Hk. field. lra. }
  rewrite E. reflexivity.
Qed.
Lemma V_given sf angle m r n alpha w : (0 < n)%Z -> 0 <= r <= 1 ->
  V_test sf angle alpha w (Some (Fin m)) (Some r) (Some n) =
    Ok {| v_V := Fin (IZR n * r * cos (m - angle)); v_u := Fin (IZR n * r * cos (m - angle) * sqrt (2 / IZR n));
          v_pval := Fin (sf (IZR n * r * cos (m - angle) * sqrt (2 / IZR n))) |}.
Proof.
  intros Hn Hr. unfold V_test. destruct (Z.leb_spec n 0); [lia|]. cbn [bind].
  destruct (Rleb_spec 0 r); [|lra]. destruct (Rleb_spec r 1); [|lra]. cbn [andb negb].
  rewrite v_stat_eq. reflexivity.
Qed.
Lemma sample_cos_bound angle alpha w : valid_sample alpha w ->
  Rabs (sample_sum (fun a => cos (a - angle)) alpha w) <= circ_r alpha w * sample_size alpha w
    <= sample_size alpha w.
Proof.
  intros Hv. pose proof (smp_pos _ _ Hv) as Hw. pose proof (circ_r_range _ _ Hv) as Rr.
  unfold circ_r in *. fold (smp alpha w) in *. rewrite sample_size_eq, sample_sum_eq.
  split; [|nra]. rewrite circ_r_s_eq by exact Hw.
  replace (Rlen (smp alpha w) / wtotal (smp alpha w) * wtotal (smp alpha w)) with (Rlen (smp alpha w)) by (field; lra).
  rewrite <- proj_eq. destruct (Rlen_polar (smp alpha w)) as [E1 E2].
  set (x := arctan2 (Ssum (smp alpha w)) (Csum (smp alpha w))) in *. set (L := Rlen (smp alpha w)) in *.
  rewrite E1, E2.
  replace (L * cos x * cos angle + L * sin x * sin angle) with (L * cos (x - angle)) by (rewrite cos_minus; ring).
  pose proof (Rlen_nonneg (smp alpha w)). fold L in H. pose proof (COS_bound (x - angle)).
  rewrite Rabs_mult, (Rabs_right L) by lra. assert (Rabs (cos (x - angle)) <= 1) by (apply Rabs_le; lra). nra.
Qed.
Lemma V_max sf angle alpha w k m V u p : valid_sample alpha w -> sample_size alpha w = IZR k ->
  circ_mean alpha w = Fin m ->
  V_test sf angle (Some alpha) w None None None = Ok {| v_V := Fin V; v_u := u; v_pval := p |} ->
  exists V0 u0 p0, V_test sf m (Some alpha) w None None None = Ok {| v_V := Fin V0; v_u := u0; v_pval := p0 |} /\
    V <= V0 /\ (V = V0 <-> same_dir angle m).
Proof.
  intros Hv Hk Hm E. destruct (circ_mean_defined _ _ _ Hm) as [Hr _].
  rewrite (V_sample sf angle alpha w k None None Hv Hk ltac:(lra)) in E. injection E as EV _ _.
  rewrite (V_sample sf m alpha w k None None Hv Hk ltac:(lra)).
  do 3 eexists. split; [reflexivity|]. rewrite <- EV.
  destruct (mean_maximises alpha w m angle Hv Hm) as [A B]. split; [exact A|]. split; [exact B|].
  intros D. unfold sample_sum. rewrite !wsum_eq. apply Rsum_map_ext. intros x _. f_equal. apply same_dir_cos.
  apply same_dir_sub; [apply same_dir_refl|exact D].
Qed.
Lemma V_periodic sf angle angle' alpha w m r n : same_dir angle angle' ->
  V_test sf angle alpha w m r n = V_test sf angle' alpha w m r n.
Proof.
  intros D.
  assert (E : forall N ρ μ, v_stat N ρ μ angle = v_stat N ρ μ angle').
  { intros. rewrite !v_stat_eq. f_equal. apply same_dir_cos, same_dir_sub; [apply same_dir_refl|exact D]. }
  unfold V_test. destruct m as [[m| | |]|], r as [r|], n as [n|]; try (destruct (Z.leb n 0));
    try (destruct (sample_args alpha w) as [aw|]; cbn [bind]; [|reflexivity]);
    try (destruct (Z.leb (Rfloor (Rsum (snd aw))) 0); cbn [bind]; [reflexivity|]);
    try (destruct (circ_mean_and_r (fst aw) (Some (snd aw))) as [[mm| | |] rr]; cbn [fst snd bind]);
    cbn [bind]; rewrite ?E; reflexivity.
Qed.
Lemma valid_shift t alpha w : valid_sample alpha w -> valid_sample (map (fun a => a + t) alpha) w.
Proof. apply valid_map. Qed.
Lemma sample_size_map f alpha w : sample_size (map f alpha) w = sample_size alpha w.
Proof.
  unfold sample_size, sample_sum. rewrite eff_weights_map. generalize (eff_weights alpha w) as v.
  induction alpha as [|a l IH]; intros [|x v]; simpl; auto. f_equal. apply IH.
Qed.
Lemma wsum_map f g alpha v : wsum f (map g alpha) v = wsum (fun a => f (g a)) alpha v.
Proof. revert v. induction alpha as [|a l IH]; intros [|x v]; simpl; auto. f_equal. apply IH. Qed.
Lemma V_rot sf angle t alpha w k : valid_sample alpha w -> sample_size alpha w = IZR k ->
  / 1000000000000 < circ_r alpha w ->
  V_test sf (angle + t) (Some (map (fun a => a + t) alpha)) w None None None =
  V_test sf angle (Some alpha) w None None None.
Proof.
  intros Hv Hk Hr.
  rewrite (V_sample sf (angle + t) _ w k); [|apply valid_shift, Hv|rewrite sample_size_map; exact Hk|].
  - rewrite (V_sample sf angle alpha w k) by assumption.
    assert (E : sample_sum (fun a => cos (a - (angle + t))) (map (fun a => a + t) alpha) w
                = sample_sum (fun a => cos (a - angle)) alpha w).
    { unfold sample_sum. rewrite eff_weights_map, wsum_map, !wsum_eq. apply Rsum_map_ext. intros x _.
      f_equal. f_equal. ring. }
    rewrite E. reflexivity.
  - rewrite api_rot by exact Hv. exact Hr.
Qed.
(** Fractional total weight: int() truncates it. *)
Lemma circ_r_single a x : 0 < x -> circ_r [a] (Some [x]) = 1.
Proof.
  intros Hx. assert (Hv : valid_sample [a] (Some [x])).
  { split; [discriminate|]. repeat split; [constructor; [lra|constructor]|simpl; lra]. }
  apply circ_r_one; [exact Hv|]. intros p q (y & Hp & _) (z & Hq & _). simpl in Hp, Hq.
  destruct Hp as [Hp|[]], Hq as [Hq|[]]. injection Hp as <- _. injection Hq as <- _. apply same_dir_refl.
Qed.
Lemma V_fraction sf : exists angle alpha w V u p, valid_sample alpha (Some w) /\
  / 1000000000000 < circ_r alpha (Some w) /\
  V_test sf angle (Some alpha) (Some w) None None None = Ok {| v_V := Fin V; v_u := u; v_pval := p |} /\
  V <> sample_sum (fun a => cos (a - angle)) alpha (Some w).
Proof.
  assert (Hv : valid_sample [0] (Some [3/2])).
  { split; [discriminate|]. repeat split; [constructor; [lra|constructor]|simpl; lra]. }
  exists 0, [0], [3/2], 1.
  assert (Hr : circ_r [0] (Some [3/2]) = 1) by (apply circ_r_single; lra).
  unfold V_test, sample_args. cbn [length Nat.eqb weights negb bind fst snd].
  assert (E : Rfloor (Rsum [3/2]) = 1%Z) by (apply Rfloor_unique; simpl; lra).
  rewrite E. cbn [Z.leb Z.compare bind]. unfold circ_mean_and_r. cbn [weights].
  change (combine [0] [3/2]) with (smp [0] (Some [3/2])).
  unfold circ_r in Hr. cbn [weights] in Hr. change (combine [0] [3/2]) with (smp [0] (Some [3/2])) in Hr.
  destruct (circ_mean_and_r_s_cases (smp [0] (Some [3/2]))) as [[H _]|[_ ->]]; [lra|]. cbn [fst snd bind].
  rewrite Hr. destruct (Rleb_spec 0 1); [|lra]. destruct (Rleb_spec 1 1); [|lra]. cbn [andb negb].
  assert (Em : mean_dir (smp [0] (Some [3/2])) = 0).
  { unfold mean_dir. rewrite compute_C_eq, compute_S_eq. unfold Csum, Ssum, wtotal, smp. simpl.
    rewrite cos_0, sin_0. unfold arctan2.
    replace ((3 / 2 * 1 + 0) / (3 / 2 + 0)) with 1 by field.
    replace ((3 / 2 * 0 + 0) / (3 / 2 + 0)) with 0 by field.
    destruct (Rltb_spec 0 1); [|lra]. unfold Rdiv. rewrite Rmult_0_l, atan_0.
    apply angmod0_unique; [pose proof PI2_pos; lra|apply same_dir_refl]. }
  rewrite Em, v_stat_eq. replace (1 * 1 * cos (0 - 0)) with 1 by (rewrite Rminus_0_r, cos_0; ring).
  do 2 eexists. split; [exact Hv|]. split; [unfold circ_r; cbn [weights];
    change (combine [0] [3/2]) with (smp [0] (Some [3/2])); lra|].
  split; [reflexivity|]. unfold sample_sum. simpl. rewrite Rminus_0_r, cos_0. lra.
Qed.

(** ** One-sample test *)
Lemma one_sample_bounds chi angle alpha w lb ub : exists b,
  one_sample_test chi angle alpha w (Some lb) (Some ub) = Ok b /\ (b = true <-> ~ on_ccw_arc angle lb ub).
Proof.
  exists (negb (is_within_circular_range angle lb ub)). split; [reflexivity|].
  rewrite <- is_within_ccw. destruct (is_within_circular_range angle lb ub); simpl; intuition congruence.
Qed.
Lemma one_sample_turns chi angle angle' lb lb' ub ub' alpha w :
  same_dir angle angle' -> same_dir lb lb' -> same_dir ub ub' ->
  one_sample_test chi angle alpha w (Some lb) (Some ub) = one_sample_test chi angle' alpha w (Some lb') (Some ub').
Proof.
  intros H1 H2 H3. unfold one_sample_test. cbn [bind]. do 2 f_equal. now apply is_within_dir.
Qed.
Lemma one_sample_turn_rot chi angle lb ub alpha w t :
  one_sample_test chi (angle + t) alpha w (Some (lb + t)) (Some (ub + t))
  = one_sample_test chi angle alpha w (Some lb) (Some ub).
Proof. unfold one_sample_test. cbn [bind]. now rewrite is_within_rot. Qed.
Lemma ci_default_eq chi alpha w : valid_sample alpha w ->
  circ_mean_ci_default chi alpha (eff_weights alpha w) =
  if Rleb (circ_r alpha w) (/ 1000000000000)
  then (if Rltb (sample_size alpha w) 8 then Err ValueError
        else if Rltb (circ_r alpha w) (sqrt (chi / (2 * sample_size alpha w))) then Err ValueError
        else Ok None)
  else ci_approximate (mean_dir (smp alpha w)) (circ_r alpha w) (sample_size alpha w) chi.
Proof.
  intros Hv. unfold circ_mean_ci_default. rewrite circ_mean_and_r_eff, <- (sample_size_Rsum _ _ Hv).
  unfold circ_mean_and_r, circ_r. fold (smp alpha w).
  destruct (circ_mean_and_r_s_cases (smp alpha w)) as [[H ->]|[H ->]].
  - destruct (Rleb_spec (circ_r_s (smp alpha w)) (/ 1000000000000)); [reflexivity|lra].
  - destruct (Rleb_spec (circ_r_s (smp alpha w)) (/ 1000000000000)); [lra|reflexivity].
Qed.
Lemma one_sample_mean chi alpha w m b : valid_sample alpha w -> 0 < chi ->
  circ_mean alpha w = Fin m ->
  one_sample_test chi m (Some alpha) w None None = Ok b -> b = false.
Proof.
  intros Hv Hc Hm. unfold one_sample_test. rewrite (sample_args_ok _ _ Hv). cbn [bind fst snd].
  rewrite (ci_default_eq _ _ _ Hv). destruct (circ_mean_defined _ _ _ Hm) as [Hr ->].
  destruct (Rleb_spec (circ_r alpha w) (/ 1000000000000)); [lra|].
  pose proof (circ_r_range _ _ Hv) as Rr.
  destruct (ci_approximate (mean_dir (smp alpha w)) (circ_r alpha w) (sample_size alpha w) chi) as [[[lb ub]|]|] eqn:E;
    cbn [bind]; intros F; try discriminate.
  - destruct (ci_approximate_contains _ _ _ _ _ _ (proj1 Rr) E) as (A & _).
    apply is_within_ccw in A. rewrite A in F. injection F as <-. reflexivity.
  - exfalso. assert (Hn : 8 <= sample_size alpha w).
    { destruct (Rlt_le_dec (sample_size alpha w) 8); [|lra]. unfold ci_approximate in E.
      destruct (Rltb_spec (sample_size alpha w) 8); [discriminate|lra]. }
    destruct (ci_approximate_total (mean_dir (smp alpha w)) (circ_r alpha w) (sample_size alpha w) chi Hn Hc Rr) as [A B].
    destruct (Rlt_le_dec (circ_r alpha w) (sqrt (chi / (2 * sample_size alpha w)))) as [L|L].
    + rewrite (B L) in E. discriminate.
    + destruct (A L) as [p Hp]. rewrite Hp in E. discriminate.
Qed.
Lemma orient_dir m m' lb lb' ub ub' : same_dir m m' -> same_dir lb lb' -> same_dir ub ub' ->
  same_dir (fst (orient m lb ub)) (fst (orient m' lb' ub')) /\
  same_dir (snd (orient m lb ub)) (snd (orient m' lb' ub')).
Proof.
  intros H1 H2 H3. unfold orient. rewrite (is_within_dir m m' lb lb' ub ub' H1 H2 H3).
  destruct (is_within_circular_range m' lb' ub'); auto.
Qed.
Lemma orient_shift m lb ub t : orient (m + t) (lb + t) (ub + t)
  = (fst (orient m lb ub) + t, snd (orient m lb ub) + t).
Proof. unfold orient. rewrite is_within_rot. destruct (is_within_circular_range m lb ub); reflexivity. Qed.
Lemma ci_approximate_shift m m' t r n chi : same_dir m' (m + t) ->
  match ci_approximate m r n chi, ci_approximate m' r n chi with
  | Ok (Some (lb, ub)), Ok (Some (lb', ub')) => same_dir lb' (lb + t) /\ same_dir ub' (ub + t)
  | Ok None, Ok None => True
  | Err e, Err e' => e = e'
  | _, _ => False
  end.
Proof.
  intros D. unfold ci_approximate. destruct (Rltb n 8); [reflexivity|].
  destruct (Rltb r (sqrt (chi / (2 * n)))); [reflexivity|].
  set (rad := if Rleb r (9/10) then _ else _).
  destruct (Rltb rad 0 || Reqb (n * r) 0); [exact I|].
  set (inner := sqrt rad / (n * r)).
  destruct (Rltb 1 inner || Rltb inner (-1)); [exact I|].
  set (d := acos inner).
  pose proof (orient_shift m (m - d) (m + d) t) as S.
  assert (A := orient_dir m' (m + t) (m' - d) (m - d + t) (m' + d) (m + d + t) D).
  assert (D1 : same_dir (m' - d) (m - d + t)) by (destruct D as [k Hk]; exists k; lra).
  assert (D2 : same_dir (m' + d) (m + d + t)) by (destruct D as [k Hk]; exists k; lra).
  specialize (A D1 D2). rewrite S in A. cbn [fst snd] in A.
  destruct (orient m (m - d) (m + d)) as [lo up]. destruct (orient m' (m' - d) (m' + d)) as [lo' up'].
  cbn [fst snd] in A. destruct A as [A1 A2]. split.
  - eapply same_dir_trans; [apply angmod0_same_dir|]. eapply same_dir_trans; [exact A1|].
    apply same_dir_add; [apply same_dir_sym, angmod0_same_dir|apply same_dir_refl].
  - eapply same_dir_trans; [apply angmod0_same_dir|]. eapply same_dir_trans; [exact A2|].
    apply same_dir_add; [apply same_dir_sym, angmod0_same_dir|apply same_dir_refl].
Qed.
Lemma one_sample_rot chi angle alpha w t : valid_sample alpha w ->
  one_sample_test chi (angle + t) (Some (map (fun a => a + t) alpha)) w None None
  = one_sample_test chi angle (Some alpha) w None None.
Proof.
  intros Hv. unfold one_sample_test. rewrite (sample_args_ok _ _ (valid_shift t _ _ Hv)), (sample_args_ok _ _ Hv).
  cbn [bind fst snd]. rewrite (ci_default_eq chi _ w Hv), (ci_default_eq chi _ w (valid_shift t _ _ Hv)).
  rewrite (api_rot t alpha w Hv), sample_size_map.
  destruct (Rleb_spec (circ_r alpha w) (/ 1000000000000)) as [L|L].
  { destruct (Rltb (sample_size alpha w) 8); [reflexivity|].
    destruct (Rltb (circ_r alpha w) (sqrt (chi / (2 * sample_size alpha w)))); reflexivity. }
  assert (D : same_dir (mean_dir (smp (map (fun a => a + t) alpha) w)) (mean_dir (smp alpha w) + t)).
  { rewrite smp_shift, mean_dir_rot; [apply angmod0_same_dir|apply smp_pos, Hv|].
    unfold circ_r in L. fold (smp alpha w) in L. lra. }
  pose proof (ci_approximate_shift _ _ t (circ_r alpha w) (sample_size alpha w) chi D) as S.
  destruct (ci_approximate (mean_dir (smp alpha w)) (circ_r alpha w) (sample_size alpha w) chi) as [[[lb ub]|]|e];
  destruct (ci_approximate (mean_dir (smp (map (fun a => a + t) alpha) w)) (circ_r alpha w) (sample_size alpha w) chi)
    as [[[lb' ub']|]|e']; cbn [bind]; try contradiction; try reflexivity; [|congruence].
  destruct S as [S1 S2]. do 2 f_equal.
  rewrite <- (is_within_rot angle lb ub t). apply is_within_dir; auto. apply same_dir_refl.
Qed.

(** ** Batschelet *)
Lemma angmod0_open_half x : (Rltb 0 (angmod0 x) && Rltb (angmod0 x) PI = true)
  <-> exists t, 0 < t < PI /\ same_dir x t.
Proof.
  rewrite andb_true_iff, !Rltb_true. split.
  - intros H. exists (angmod0 x). split; [lra|apply same_dir_sym, angmod0_same_dir].
  - intros (t & Ht & D). rewrite (angmod0_unique x t); [lra|pose proof PI_pos; lra|apply same_dir_sym, D].
Qed.
Lemma batschelet_flag angle a :
  (let x := angmod0 (angle + / 2 * PI - a) in Rltb 0 x && Rltb x PI) = true <-> in_open_half angle a.
Proof.
  cbv zeta. rewrite angmod0_open_half. split.
  - intros (t & Ht & [k Hk]). exists (PI / 2 - t). split; [lra|]. exists (- k)%Z. rewrite opp_IZR. lra.
  - intros (t & Ht & [k Hk]). exists (PI / 2 - t). split; [lra|]. exists (- k)%Z. rewrite opp_IZR. lra.
Qed.
Lemma binom_row n : Rsum (map (fun i => C n i) (seq 0 (S n))) = 2 ^ n.
Proof.
  assert (H : forall k, Rsum (map (fun i => C n i) (seq 0 (S k))) = sum_f_R0 (fun i => C n i) k).
  { induction k as [|k IH]; [simpl; lra|]. rewrite seq_S, map_app, Rsum_app, IH. simpl. lra. }
  rewrite H. replace 2 with (1 + 1) by ring. rewrite binomial. apply sum_eq. intros i Hi. rewrite !pow1. ring.
Qed.
Lemma C_pos n i : 0 < C n i.
Proof.
  unfold C. apply Rdiv_lt_0_compat; [apply INR_fact_lt_0|apply Rmult_lt_0_compat; apply INR_fact_lt_0].
Qed.
Lemma seq_C_pos n a k : 0 <= Rsum (map (fun i => C n i) (seq a k)).
Proof. apply Rsum_map_nonneg. intros x _. left. apply C_pos. Qed.
Lemma binom_cdf_pos k n : 0 < binom_cdf k n.
Proof.
  unfold binom_cdf. apply Rdiv_lt_0_compat; [|apply pow_lt; lra]. cbn [seq map]. rewrite Rsum_cons.
  pose proof (C_pos n 0). pose proof (seq_C_pos n 1 k). lra.
Qed.
Lemma C_mirror_sum n k : (k <= n)%nat ->
  Rsum (map (fun i => C n i) (seq (n - k) (S k))) = Rsum (map (fun i => C n i) (seq 0 (S k))).
Proof.
  intros Hk. induction k as [|k IH].
  - rewrite Nat.sub_0_r. simpl. rewrite (pascal_step1 n n) by lia. rewrite Nat.sub_diag. reflexivity.
  - rewrite (seq_S (S k) 0), map_app, Rsum_app, <- IH by lia.
    replace (n - k)%nat with (S (n - S k)) by lia. cbn [seq map]. rewrite !Rsum_cons. cbn [map].
    rewrite Rsum_nil. rewrite (pascal_step1 n (0 + S k)) by lia. simpl. lra.
Qed.
Lemma binom_cdf_mono k k' n : (k <= k')%nat -> binom_cdf k n <= binom_cdf k' n.
Proof.
  intros H. unfold binom_cdf. apply Rmult_le_compat_r; [left; apply Rinv_0_lt_compat, pow_lt; lra|].
  replace (S k') with (S k + (k' - k))%nat by lia. rewrite seq_app, map_app, Rsum_app.
  pose proof (seq_C_pos n (0 + S k) (k' - k)). lra.
Qed.
Lemma binom_cdf_half k n : (2 * k < n)%nat -> 2 * binom_cdf k n <= 1.
Proof.
  intros H. unfold binom_cdf.
  assert (E : 2 * Rsum (map (fun i => C n i) (seq 0 (S k))) <= 2 ^ n).
  { rewrite <- binom_row. replace (S n) with (S k + ((n - k - S k) + S k))%nat by lia.
    rewrite !seq_app, !map_app, !Rsum_app. replace (0 + S k + (n - k - S k))%nat with (n - k)%nat by lia.
    rewrite C_mirror_sum by lia. pose proof (seq_C_pos n (0 + S k) (n - k - S k)). lra. }
  apply Rmult_le_reg_r with (2 ^ n); [apply pow_lt; lra|].
  replace (2 * (Rsum (map (fun i => C n i) (seq 0 (S k))) / 2 ^ n) * 2 ^ n)
    with (2 * Rsum (map (fun i => C n i) (seq 0 (S k)))) by (field; apply pow_nonzero; lra). lra.
Qed.
Lemma binomtest_range k n : (k <= n)%nat -> 0 < binomtest k n <= 1.
Proof.
  intros H. unfold binomtest. destruct (Nat.eqb_spec (2 * k) n); [lra|].
  pose proof (binom_cdf_pos (Nat.min k (n - k)) n).
  pose proof (binom_cdf_half (Nat.min k (n - k)) n ltac:(lia)). lra.
Qed.
Lemma binomtest_antitone k k' n : (k <= n)%nat -> (k' <= n)%nat ->
  (Nat.min k (n - k) <= Nat.min k' (n - k'))%nat -> binomtest k n <= binomtest k' n.
Proof.
  intros Hk Hk' H. destruct (Nat.eq_dec (2 * k') n) as [E|E].
  - unfold binomtest at 2. rewrite (proj2 (Nat.eqb_eq _ _) E). apply binomtest_range, Hk.
  - unfold binomtest. rewrite (proj2 (Nat.eqb_neq _ _) E).
    destruct (Nat.eqb_spec (2 * k) n); [lia|]. pose proof (binom_cdf_mono _ _ n H). lra.
Qed.
Lemma batschelet_spec angle alpha : alpha <> [] ->
  exists c p, batschelet_test angle alpha = Ok (c, p) /\
    counts (fun a => ~ in_open_half angle a) alpha c /\ (c <= length alpha)%nat /\ 0 < p <= 1.
Proof.
  intros Ha. unfold batschelet_test. destruct (Nat.eqb_spec (length alpha) 0) as [E|_].
  { destruct alpha; [congruence|discriminate]. }
  do 2 eexists. split; [reflexivity|]. split; [|split; [lia|apply binomtest_range; lia]].
  rewrite count_compl. apply counts_count_if. intros a _. rewrite <- batschelet_flag.
  cbv zeta. destruct (Rltb 0 _ && Rltb _ PI); simpl; intuition congruence.
Qed.
Lemma batschelet_more angle alpha angle' alpha' c p c' p' :
  length alpha = length alpha' ->
  batschelet_test angle alpha = Ok (c, p) -> batschelet_test angle' alpha' = Ok (c', p') ->
  (c <= c')%nat -> (2 * c' <= length alpha)%nat -> p <= p'.
Proof.
  intros Hl E E' Hc Hc'. unfold batschelet_test in *. rewrite <- Hl in E'.
  destruct (Nat.eqb (length alpha) 0); [discriminate|].
  injection E as <- <-. injection E' as <- <-. apply binomtest_antitone; lia.
Qed.
Lemma batschelet_rot angle alpha t :
  batschelet_test (angle + t) (map (fun a => a + t) alpha) = batschelet_test angle alpha.
Proof.
  unfold batschelet_test. rewrite map_length, count_if_map.
  assert (E : forall l, count_if (fun x => let x0 := angmod0 (angle + t + / 2 * PI - (x + t)) in Rltb 0 x0 && Rltb x0 PI) l
            = count_if (fun a => let x := angmod0 (angle + / 2 * PI - a) in Rltb 0 x && Rltb x PI) l).
  { intros l. apply count_if_ext. intros x _. replace (angle + t + / 2 * PI - (x + t)) with (angle + / 2 * PI - x) by ring. reflexivity. }
  rewrite E. reflexivity.
Qed.

(** ** Binomial test *)
Lemma center_neg a m : circ_dist Center a m < 0 <-> clockwise_of m a.
Proof.
  destruct (center_spec a m) as [Rg [k E]]. split.
  - intros H. exists (- circ_dist Center a m). split; [lra|]. exists (- k)%Z. rewrite opp_IZR. lra.
  - intros (t & Ht & [j F]).
    assert (X : circ_dist Center a m = - t).
    { apply (same_dir_unique_r (- PI)); try lra. exists (j + k)%Z. rewrite plus_IZR. lra. }
    lra.
Qed.
Lemma center_pos a m : 0 < circ_dist Center a m <-> (anticlockwise_of m a \/ opposite_to m a).
Proof.
  destruct (center_spec a m) as [Rg [k E]]. split.
  - intros H. destruct (Rle_lt_or_eq_dec _ _ (proj2 Rg)) as [L|L].
    + left. exists (circ_dist Center a m). split; [lra|]. exists (- k)%Z. rewrite opp_IZR. lra.
    + right. exists (- k)%Z. rewrite opp_IZR. lra.
  - intros H. assert (Ht : exists t, 0 < t <= PI /\ same_dir a (m + t)).
    { pose proof PI_pos. destruct H as [(t & Ht & D)|D]; [exists t|exists PI]; split; auto; lra. }
    destruct Ht as (t & Ht & [j F]).
    assert (X : circ_dist Center a m = t).
    { apply (same_dir_unique_r (- PI)); try lra. exists (j + k)%Z. rewrite plus_IZR. lra. }
    lra.
Qed.
Lemma center_zero a m : circ_dist Center a m = 0 <-> same_dir a m.
Proof.
  destruct (center_spec a m) as [Rg [k E]]. pose proof PI_pos. split.
  - intros H0. exists (- k)%Z. rewrite opp_IZR. lra.
  - intros [j F]. apply (same_dir_unique_r (- PI)); try lra. exists (j + k)%Z. rewrite plus_IZR. lra.
Qed.
Lemma binomial_spec alpha md : alpha <> [] ->
  exists t, binomial_test alpha md = Ok t /\
    counts (clockwise_of md) alpha (bin_n1 t) /\
    counts (fun a => anticlockwise_of md a \/ opposite_to md a) alpha (bin_n2 t) /\
    counts (fun a => ~ same_dir a md) alpha (bin_neff t) /\
    bin_neff t = (bin_n1 t + bin_n2 t)%nat /\ 0 < bin_pval t <= 1.
Proof.
  intros Ha. unfold binomial_test. destruct (Nat.eqb_spec (length alpha) 0) as [E|_].
  { destruct alpha; [congruence|discriminate]. }
  eexists. split; [reflexivity|]. cbn [bin_n1 bin_n2 bin_neff bin_pval]. rewrite !count_if_map.
  set (n1 := count_if (fun x => Rltb (circ_dist Center x md) 0) alpha).
  set (n2 := count_if (fun x => Rltb 0 (circ_dist Center x md)) alpha).
  split; [|split; [|split; [|split; [reflexivity|]]]].
  - apply counts_count_if. intros a _. rewrite Rltb_true. apply center_neg.
  - apply counts_count_if. intros a _. rewrite Rltb_true. apply center_pos.
  - assert (E : (n1 + n2)%nat = count_if (fun x => negb (Reqb (circ_dist Center x md) 0)) alpha).
    { unfold n1, n2, count_if. clear. induction alpha as [|a l IH]; [reflexivity|]. simpl.
      destruct (Rltb_spec (circ_dist_center a md) 0); destruct (Rltb_spec 0 (circ_dist_center a md));
        destruct (Reqb_spec (circ_dist_center a md) 0); simpl; try lra; simpl in IH; lia. }
    rewrite E. apply counts_count_if. intros a _. rewrite <- center_zero.
    destruct (Reqb_spec (circ_dist Center a md) 0); simpl; intuition congruence.
  - destruct (Nat.eqb_spec (n1 + n2) 0); [lra|]. pose proof (binom_cdf_pos (Nat.min n1 n2) (n1 + n2)).
    split; [apply Rmin_glb_lt; lra|apply Rmin_r].
Qed.
Lemma binomial_reflect alpha md t t' k : alpha <> [] -> binomial_test alpha md = Ok t ->
  binomial_test (map (fun a => md - (a - md)) alpha) md = Ok t' ->
  counts (opposite_to md) alpha k ->
  (bin_n1 t' + k = bin_n2 t)%nat /\ (bin_n2 t' = bin_n1 t + k)%nat /\
  (k = 0%nat -> bin_pval t' = bin_pval t).
Proof.
  intros Ha E E' Hk. unfold binomial_test in E, E'. rewrite map_length in E'.
  destruct (Nat.eqb_spec (length alpha) 0) as [E0|_]; [discriminate|].
  injection E as <-. injection E' as <-. cbn [bin_n1 bin_n2 bin_pval].
  apply (counts_inv _ (fun a => Reqb (circ_dist Center a md) PI)) in Hk.
  2:{ intros a _. rewrite Reqb_true. destruct (center_spec a md) as [Rg [j F]]. pose proof PI_pos. split.
      - intros Hx. exists (- j)%Z. rewrite opp_IZR. lra.
      - intros [i G]. apply (same_dir_unique_r (- PI)); try lra. exists (i + j)%Z. rewrite plus_IZR. lra. }
  assert (N : forall a, circ_dist Center (md - (a - md)) md =
                        if Reqb (circ_dist Center a md) PI then PI else - circ_dist Center a md).
  { intros a. destruct (center_spec a md) as [Rg [j F]]. destruct (center_spec (md - (a - md)) md) as [Rg' [i G]].
    pose proof PI_pos. destruct (Reqb_spec (circ_dist Center a md) PI).
    - apply (same_dir_unique_r (- PI)); try lra. exists (i + j - 1)%Z. rewrite minus_IZR, plus_IZR. lra.
    - apply (same_dir_unique_r (- PI)); try lra. exists (i + j)%Z. rewrite plus_IZR. lra. }
  rewrite !count_if_map.
  assert (A : (count_if (fun x => Rltb (circ_dist Center (md - (x - md)) md) 0) alpha + k =
               count_if (fun x => Rltb 0 (circ_dist Center x md)) alpha)%nat /\
              (count_if (fun x => Rltb 0 (circ_dist Center (md - (x - md)) md)) alpha =
               count_if (fun x => Rltb (circ_dist Center x md) 0) alpha + k)%nat).
  { rewrite Hk. clear - N. pose proof PI_pos as Hp. unfold count_if. induction alpha as [|a l IH]; [auto|].
    cbn [filter]. rewrite N. destruct (Reqb_spec (circ_dist Center a md) PI) as [X|X].
    - rewrite X. destruct (Rltb_spec PI 0); [lra|]. destruct (Rltb_spec 0 PI); [|lra]. cbn [length]. lia.
    - destruct (Rltb_spec (- circ_dist Center a md) 0); destruct (Rltb_spec 0 (circ_dist Center a md)); try lra;
      destruct (Rltb_spec 0 (- circ_dist Center a md)); destruct (Rltb_spec (circ_dist Center a md) 0); try lra;
      cbn [length]; lia. }
  destruct A as [A B]. split; [exact A|]. split; [exact B|]. intros K0.
  rewrite K0, Nat.add_0_r in A, B. unfold circ_dist in *. rewrite A, B.
  rewrite (Nat.add_comm (count_if (fun x => Rltb 0 _) alpha)), (Nat.min_comm (count_if (fun x => Rltb 0 _) alpha)).
  reflexivity.
Qed.

(** ** Chi-square *)
Lemma Rsum_const0 {A} (f : A -> R) l : (forall x, In x l -> f x = 0) -> Rsum (map f l) = 0.
Proof.
  intros H. rewrite (Rsum_map_ext f (fun _ => 0)) by exact H. rewrite Rsum_map_const. ring.
Qed.
Lemma Rsum_id l : Rsum (map (fun x => x) l) = Rsum l.
Proof. now rewrite map_id. Qed.
Lemma mean_nonneg w : w <> [] -> Forall (fun x => 0 <= x) w -> 0 <= mean w.
Proof.
  intros H F. unfold mean. apply Rmult_le_pos; [apply Rsum_nonneg; rewrite Forall_forall in F; exact F|].
  left. apply Rinv_0_lt_compat, lt_0_INR. destruct w; [congruence|simpl; lia].
Qed.
Lemma existsb_neg w : existsb (fun x => Rltb x 0) w = false <-> Forall (fun x => 0 <= x) w.
Proof.
  split.
  - intros H. apply Forall_forall. intros x Hx. destruct (Rle_dec 0 x); [assumption|].
    exfalso. assert (existsb (fun x => Rltb x 0) w = true).
    { apply existsb_exists. exists x. split; auto. apply Rltb_true. lra. } congruence.
  - intros F. rewrite Forall_forall in F. destruct (existsb (fun x => Rltb x 0) w) eqn:E; [|reflexivity].
    apply existsb_exists in E. destruct E as (x & Hx & H). apply Rltb_true in H. specialize (F x Hx). lra.
Qed.
Lemma chisquare_spec sf w : w <> [] -> Forall (fun x => 0 <= x) w -> 0 < Rsum w ->
  exists x, chisquare_test sf w = Ok (Fin x, Fin (sf (length w - 1)%nat x)) /\
    0 <= x /\ (x = 0 <-> forall a b, In a w -> In b w -> a = b) /\
    x = INR (length w) * Rsum (map (fun y => y ^ 2) w) / Rsum w - Rsum w.
Proof.
  intros H0 F Hs. assert (Hn : 0 < INR (length w)) by (apply lt_0_INR; destruct w; [congruence|simpl; lia]).
  assert (Hm : 0 < mean w) by (unfold mean; apply Rdiv_lt_0_compat; assumption).
  unfold chisquare_test. destruct (Nat.eqb_spec (length w) 0) as [E|_]; [rewrite E in Hn; simpl in Hn; lra|].
  rewrite (proj2 (existsb_neg w) F). destruct (Reqb_spec (mean w) 0); [lra|].
  eexists. split; [reflexivity|]. unfold chisquare_stat.
  assert (Hpos : forall x, In x w -> 0 <= (x - mean w) ^ 2 / mean w).
  { intros x _. apply Rmult_le_pos; [apply pow2_ge_0|left; apply Rinv_0_lt_compat, Hm]. }
  split; [apply Rsum_map_nonneg, Hpos|]. split; [split|].
  - intros Hz. assert (Q : forall x, In x w -> x = mean w).
    { intros x Hx. pose proof (Rsum_map_0 _ _ Hpos Hz x Hx) as E. cbn beta in E.
      apply Rmult_integral in E. destruct E as [E|E]; [|assert (0 < / mean w) by (apply Rinv_0_lt_compat, Hm); lra].
      assert (x - mean w = 0); [|lra]. destruct (Req_dec (x - mean w) 0) as [Z|N]; [exact Z|].
      exfalso. apply (pow_nonzero _ 2) in N. contradiction. }
    intros a b Ia Ib. rewrite (Q a Ia), (Q b Ib). reflexivity.
  - intros Q. assert (E : forall x, In x w -> x = mean w).
    { intros x Hx. unfold mean. rewrite <- Rsum_id. rewrite (Rsum_map_ext (fun y => y) (fun _ => x)).
      - rewrite Rsum_map_const. field. lra.
      - intros y Hy. apply Q; assumption. }
    apply Rsum_const0. intros x Hx. rewrite <- (E x Hx). unfold Rdiv. ring.
  - rewrite (Rsum_map_ext _ (fun y => / mean w * y ^ 2 + (mean w - 2 * y))).
    2:{ intros y _. field. lra. }
    rewrite Rsum_map_plus, Rsum_map_scal, Rsum_map_minus, Rsum_map_const.
    rewrite (Rsum_map_scal 2 (fun y => y)), Rsum_id. unfold mean. field. lra.
Qed.
Lemma chisquare_perm sf w w' : Permutation w w' -> chisquare_test sf w = chisquare_test sf w'.
Proof.
  intros H. unfold chisquare_test.
  assert (Em : mean w = mean w') by (unfold mean; rewrite (Rsum_perm _ _ H), (Permutation_length H); reflexivity).
  assert (Es : chisquare_stat w = chisquare_stat w').
  { unfold chisquare_stat. rewrite Em. apply Rsum_perm, Permutation_map, H. }
  rewrite Em, Es, (Permutation_length H).
  assert (Ee : existsb (fun x => Rltb x 0) w = existsb (fun x => Rltb x 0) w').
  { apply bool_eq_iff. rewrite !existsb_exists. split; intros (x & Hx & Hp); exists x; split; auto.
    - apply (Permutation_in _ H Hx).
    - apply (Permutation_in _ (Permutation_sym H) Hx). }
  rewrite Ee. reflexivity.
Qed.
Lemma chisquare_errors sf w :
  chisquare_test sf w = Err ValueError <-> (w = [] \/ exists x, In x w /\ x < 0).
Proof.
  unfold chisquare_test. destruct w as [|y w]; [cbn; tauto|]. cbn [length Nat.eqb].
  destruct (existsb (fun x => Rltb x 0) (y :: w)) eqn:E.
  - apply existsb_exists in E. destruct E as (x & Hx & Hp). apply Rltb_true in Hp.
    split; auto. intros _. right. eauto.
  - apply existsb_neg in E. rewrite Forall_forall in E. split.
    + destruct (Reqb (mean (y :: w)) 0); discriminate.
    + intros [H|(x & Hx & Hp)]; [discriminate|]. specialize (E x Hx). lra.
Qed.

(** ** Symmetry *)
Lemma symmetry_given {T} (wx : list R -> T) alpha m t : 
  symmetry_test wx (map (fun a => a + t) alpha) (Some (m + t)) = symmetry_test wx alpha (Some m).
Proof.
  unfold symmetry_test. rewrite map_length. destruct (Nat.eqb (length alpha) 0); [reflexivity|].
  do 3 f_equal. unfold symmetry_diffs. rewrite map_map. apply map_ext. intros a. f_equal. ring.
Qed.
Lemma angmod_pi_unique x y : same_dir x y -> angmod_val x (- PI) PI = angmod_val y (- PI) PI.
Proof.
  intros D. pose proof (angmod_pi_range x). pose proof (angmod_pi_range y).
  apply (same_dir_unique (- PI)); try lra.
  eapply same_dir_trans; [apply angmod_pi_dir|]. eapply same_dir_trans; [exact D|]. apply same_dir_sym, angmod_pi_dir.
Qed.
Lemma symmetry_turns {T} (wx : list R -> T) alpha alpha' m m' : turned alpha alpha' -> same_dir m m' ->
  symmetry_test wx alpha (Some m) = symmetry_test wx alpha' (Some m').
Proof.
  intros H D. unfold symmetry_test. rewrite (Forall2_len _ _ _ H).
  destruct (Nat.eqb (length alpha') 0); [reflexivity|]. do 3 f_equal. unfold symmetry_diffs.
  induction H as [|a b l l' Hab _ IH]; [reflexivity|]. cbn [map]. f_equal; [|exact IH].
  apply angmod_pi_unique, same_dir_sub; assumption.
Qed.
Lemma symmetry_diffs_spec {T} (wx : list R -> T) alpha m : alpha <> [] ->
  exists d, symmetry_test wx alpha (Some m) = Ok (Some (wx d)) /\
    Forall2 (fun a x => - PI <= x < PI /\ same_dir x (a - m)) alpha d.
Proof.
  intros Ha. unfold symmetry_test. destruct (Nat.eqb_spec (length alpha) 0) as [E|_].
  { destruct alpha; [congruence|discriminate]. }
  eexists. split; [reflexivity|]. clear Ha. unfold symmetry_diffs. induction alpha as [|a l IH]; constructor; auto.
  split; [apply angmod_pi_range|apply angmod_pi_dir].
Qed.
Lemma symmetry_rot {T} (wx : list R -> T) alpha t :
  symmetry_test wx (map (fun a => a + t) alpha) None = symmetry_test wx alpha None.
Proof.
  destruct alpha as [|a0 l]; [reflexivity|]. set (alpha := a0 :: l) in *.
  assert (Hn : alpha <> []) by discriminate.
  destruct (circ_median_rot alpha t "deviation"%string "all"%string Hn ltac:(simpl; auto) ltac:(simpl; auto) true)
    as (m & m' & E & E' & D).
  fold (circ_median_default alpha) in E. fold (circ_median_default (map (fun a => a + t) alpha)) in E'.
  unfold symmetry_test. rewrite map_length, E, E'. cbn [length Nat.eqb alpha bind].
  destruct m as [|m|ml], m' as [|m'|ml']; cbn [med_map] in D; simpl in D; try contradiction; try reflexivity.
  do 3 f_equal. unfold symmetry_diffs. rewrite map_map. apply map_ext. intros a.
  apply angmod_pi_unique. destruct D as [k D]. exists (- k)%Z. rewrite opp_IZR. lra.
Qed.
