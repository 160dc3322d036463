(** C22-C25: confidence intervals of mean and median, kappa, quantiles. *)
From Coq Require Import Sorting.Sorted.
From Verif Require Import Prelude NpModel NpProofs CircleSpec Desc2Spec UtilsModel UtilsProofs
  DescModel DescProofs DescSpec DescApi DescApi2 Desc2Model Desc2Proofs ArcProofs.

(** * Mean confidence intervals *)

Lemma ccw_centred m d : 0 <= d <= PI / 2 -> on_ccw_arc m (m - d) (m + d).
Proof.
  intros H. pose proof PI_pos. exists d, (2 * d). split; [lra|]. split; [lra|].
  split; [exists 0%Z; lra|exists 0%Z; lra].
Qed.
Lemma ccw_dir v v' lb lb' ub ub' : same_dir v v' -> same_dir lb lb' -> same_dir ub ub' ->
  on_ccw_arc v lb ub -> on_ccw_arc v' lb' ub'.
Proof.
  intros D1 D2 D3 (t & u & H1 & H2 & H3 & H4). exists t, u. split; [exact H1|]. split; [exact H2|].
  assert (X : forall x, same_dir (lb + x) (lb' + x)).
  { intros x. apply same_dir_add; [exact D2|apply same_dir_refl]. }
  split.
  - eapply same_dir_trans; [apply same_dir_sym, D1|]. eapply same_dir_trans; [exact H3|apply X].
  - eapply same_dir_trans; [apply same_dir_sym, D3|]. eapply same_dir_trans; [exact H4|apply X].
Qed.
Lemma orient_centred m d : 0 <= d <= PI / 2 -> orient m (m - d) (m + d) = (m - d, m + d).
Proof.
  intros H. unfold orient.
  assert (E : is_within_circular_range m (m - d) (m + d) = true) by (apply is_within_ccw, ccw_centred, H).
  now rewrite E.
Qed.
Lemma centred_ccw m d lb ub : centred_arc m d lb ub -> on_ccw_arc m lb ub.
Proof.
  intros (H & L & U). apply (ccw_dir m m (m - d) lb (m + d) ub).
  - apply same_dir_refl. - apply same_dir_sym, L. - apply same_dir_sym, U. - apply ccw_centred, H.
Qed.
Lemma centred_unique m d d' lb ub : centred_arc m d lb ub -> centred_arc m d' lb ub -> d = d'.
Proof.
  intros (H1 & _ & U) (H2 & _ & U'). pose proof PI_pos.
  assert (D : same_dir (m + d) (m + d')) by (eapply same_dir_trans; [apply same_dir_sym, U|exact U']).
  assert (m + d = m + d'); [|lra]. apply (same_dir_unique m); auto; lra.
Qed.
Lemma acos_half x : 0 <= x <= 1 -> 0 <= acos x <= PI / 2.
Proof.
  intros H. pose proof (acos_bound x). split; [lra|].
  destruct (Rle_dec (acos x) (PI / 2)) as [|N]; [auto|exfalso].
  assert (cos (acos x) < 0) by (apply cos_lt_0; lra). rewrite cos_acos in H1 by lra. lra.
Qed.
Lemma acos_decr x y : 0 <= x -> x <= y -> y <= 1 -> acos y <= acos x.
Proof.
  intros Hx H Hy. destruct (Rle_dec (acos y) (acos x)) as [|N]; [auto|exfalso].
  pose proof (acos_bound x). pose proof (acos_bound y).
  assert (cos (acos y) < cos (acos x)) by (apply cos_decreasing_1; lra).
  rewrite !cos_acos in H2 by lra. lra.
Qed.
Lemma asin_half x : 0 <= x <= 1 -> 0 <= asin x <= PI / 2.
Proof.
  intros H. pose proof (asin_bound x). split; [|lra].
  destruct (Rle_dec 0 (asin x)) as [|N]; [auto|exfalso].
  assert (sin (asin x) < 0) by (apply sin_lt_0_var; lra). rewrite sin_asin in H1 by lra. lra.
Qed.
Lemma asin_incr x y : 0 <= x -> x <= y -> y <= 1 -> asin x <= asin y.
Proof.
  intros Hx H Hy. destruct (Rle_dec (asin x) (asin y)) as [|N]; [auto|exfalso].
  pose proof (asin_bound x). pose proof (asin_bound y).
  assert (sin (asin y) < sin (asin x)) by (apply sin_increasing_1; lra).
  rewrite !sin_asin in H2 by lra. lra.
Qed.
Definition approx_rad (r n chi : R) : R :=
  if Rleb r (9/10) then (2 * n * (2 * (n * r) ^ 2 - n * chi)) / (4 * n - chi)
  else n ^ 2 - (n ^ 2 - (n * r) ^ 2) * exp (chi / n).
Definition approx_inner (r n chi : R) : R := sqrt (approx_rad r n chi) / (n * r).
Lemma ci_approximate_some mean r n chi lb ub : 0 <= r ->
  ci_approximate mean r n chi = Ok (Some (lb, ub)) ->
  8 <= n /\ sqrt (chi / (2 * n)) <= r /\ 0 <= approx_rad r n chi /\ 0 < r /\
  0 <= approx_inner r n chi <= 1 /\
  lb = angmod0 (mean - acos (approx_inner r n chi)) /\ ub = angmod0 (mean + acos (approx_inner r n chi)).
Proof.
  intros Hr. unfold ci_approximate. fold (approx_rad r n chi). fold (approx_inner r n chi).
  destruct (Rltb_spec n 8) as [|Hn]; [discriminate|].
  destruct (Rltb_spec r (sqrt (chi / (2 * n)))) as [|Hm]; [discriminate|].
  destruct (Rltb_spec (approx_rad r n chi) 0) as [|Hd]; [discriminate|].
  destruct (Reqb_spec (n * r) 0) as [|Hz]; [discriminate|]. cbn [orb].
  destruct (Rltb_spec 1 (approx_inner r n chi)) as [|H1]; [discriminate|].
  destruct (Rltb_spec (approx_inner r n chi) (-1)) as [|H2]; [discriminate|]. cbn [orb].
  assert (P : 0 < r) by (destruct (Req_dec r 0) as [->|]; [rewrite Rmult_0_r in Hz; lra|lra]).
  assert (I : 0 <= approx_inner r n chi <= 1).
  { split; [|lra]. unfold approx_inner. apply Rmult_le_pos; [apply sqrt_pos|].
    left. apply Rinv_0_lt_compat. apply Rmult_lt_0_compat; lra. }
  rewrite orient_centred by (apply acos_half, I). intros E. injection E as <- <-.
  repeat split; auto; lra.
Qed.
Lemma ci_approximate_contains mean r n chi lb ub : 0 <= r ->
  ci_approximate mean r n chi = Ok (Some (lb, ub)) ->
  on_ccw_arc mean lb ub /\ (exists d, centred_arc mean d lb ub) /\
  0 <= lb < 2 * PI /\ 0 <= ub < 2 * PI.
Proof.
  intros Hr E. destruct (ci_approximate_some _ _ _ _ _ _ Hr E) as (_ & _ & _ & _ & I & -> & ->).
  assert (Cn : centred_arc mean (acos (approx_inner r n chi))
                 (angmod0 (mean - acos (approx_inner r n chi))) (angmod0 (mean + acos (approx_inner r n chi)))).
  { split; [apply acos_half, I|]. split; apply angmod0_same_dir. }
  split; [eapply centred_ccw, Cn|]. split; [eexists; exact Cn|]. split; apply angmod0_range.
Qed.
Lemma sq_bound n r : 0 <= r <= 1 -> 0 <= n ^ 2 /\ (n * r) ^ 2 <= n ^ 2.
Proof.
  intros H. split; [apply pow2_ge_0|]. rewrite Rpow_mult_distr.
  assert (r ^ 2 <= 1) by (simpl; nra). pose proof (pow2_ge_0 n).
  rewrite <- (Rmult_1_r (n ^ 2)) at 2. apply Rmult_le_compat_l; auto.
Qed.
Lemma approx_rad_bounds r n chi : 8 <= n -> 0 <= r <= 1 -> 0 <= chi -> sqrt (chi / (2 * n)) <= r ->
  0 < 4 * n - chi /\ chi <= 2 * n * (r * r).
Proof.
  intros Hn Hr Hc Hs.
  assert (Q : chi / (2 * n) <= r * r).
  { assert (0 <= chi / (2 * n)) by (apply Rmult_le_pos; [lra|left; apply Rinv_0_lt_compat; lra]).
    rewrite <- (sqrt_sqrt (chi / (2 * n))) by auto.
    pose proof (sqrt_pos (chi / (2 * n))). apply Rmult_le_compat; lra. }
  assert (chi <= 2 * n * (r * r)).
  { apply Rmult_le_reg_r with (/ (2 * n)); [apply Rinv_0_lt_compat; lra|].
    replace (2 * n * (r * r) * / (2 * n)) with (r * r) by (field; lra). exact Q. }
  split; [|auto]. assert (r * r <= 1) by nra.
  assert (n * (r * r) <= n * 1) by (apply Rmult_le_compat_l; lra). lra.
Qed.
Lemma approx_rad_decr r n chi chi' : 8 <= n -> 0 <= r <= 1 -> 0 <= chi -> chi <= chi' ->
  sqrt (chi' / (2 * n)) <= r -> approx_rad r n chi' <= approx_rad r n chi.
Proof.
  intros Hn Hr Hc Hcc Hs. unfold approx_rad. destruct (Rleb r (9/10)).
  - destruct (approx_rad_bounds r n chi' Hn Hr ltac:(lra) Hs) as [B1 B2].
    apply Rmult_le_reg_r with ((4 * n - chi) * (4 * n - chi')); [apply Rmult_lt_0_compat; lra|].
    replace (2 * n * (2 * (n * r) ^ 2 - n * chi') / (4 * n - chi') * ((4 * n - chi) * (4 * n - chi')))
      with (2 * n * (2 * (n * r) ^ 2 - n * chi') * (4 * n - chi)) by (field; lra).
    replace (2 * n * (2 * (n * r) ^ 2 - n * chi) / (4 * n - chi) * ((4 * n - chi) * (4 * n - chi')))
      with (2 * n * (2 * (n * r) ^ 2 - n * chi) * (4 * n - chi')) by (field; lra).
    assert (0 <= 2 * n * (chi' - chi) * (4 * n ^ 2 - 2 * (n * r) ^ 2)).
    { apply Rmult_le_pos; [apply Rmult_le_pos; lra|].
      destruct (sq_bound n r Hr). lra. }
    nra.
  - assert (E : exp (chi / n) <= exp (chi' / n)).
    { destruct (Req_dec chi chi') as [->|]; [lra|]. left. apply exp_increasing.
      apply Rmult_lt_compat_r; [apply Rinv_0_lt_compat; lra|lra]. }
    assert (0 <= n ^ 2 - (n * r) ^ 2) by (destruct (sq_bound n r Hr); lra). nra.
Qed.
Lemma ci_approximate_wider mean r n chi chi' lb ub lb' ub' : 0 <= r <= 1 -> 0 <= chi -> chi <= chi' ->
  ci_approximate mean r n chi = Ok (Some (lb, ub)) ->
  ci_approximate mean r n chi' = Ok (Some (lb', ub')) ->
  exists d d', centred_arc mean d lb ub /\ centred_arc mean d' lb' ub' /\ d <= d'.
Proof.
  intros Hr Hc Hcc E E'.
  destruct (ci_approximate_some _ _ _ _ _ _ (proj1 Hr) E) as (Hn & Hs & Hd & Hp & I & -> & ->).
  destruct (ci_approximate_some _ _ _ _ _ _ (proj1 Hr) E') as (_ & Hs' & Hd' & _ & I' & -> & ->).
  exists (acos (approx_inner r n chi)), (acos (approx_inner r n chi')).
  split; [split; [apply acos_half, I|split; apply angmod0_same_dir]|].
  split; [split; [apply acos_half, I'|split; apply angmod0_same_dir]|].
  apply acos_decr; try lra. unfold approx_inner.
  apply Rmult_le_compat_r; [left; apply Rinv_0_lt_compat, Rmult_lt_0_compat; lra|].
  apply sqrt_le_1; auto. apply approx_rad_decr; auto.
Qed.
Lemma exp_bound_2x x : 81/100 <= x <= 1 -> (1 - x) * exp (2 * x) <= 1.
Proof.
  intros H.
  assert (E1 : 19/100 <= exp (- (162/100))).
  { replace (- (162/100)) with (INR 40 * - (405/10000)) by (simpl; lra).
    assert (G : forall k, (1 - 405/10000) ^ k <= exp (INR k * - (405/10000))).
    { induction k as [|k IH]; [simpl; rewrite Rmult_0_l, exp_0; lra|].
      rewrite S_INR, Rmult_plus_distr_r, Rmult_1_l, exp_plus. cbn [pow].
      pose proof (exp_ineq1_le (- (405/10000))). rewrite (Rmult_comm (exp _)).
      apply Rmult_le_compat; [lra|apply pow_le; lra|lra|exact IH]. }
    pose proof (G 40%nat) as G40. eapply Rle_trans; [|exact G40]. simpl. lra. }
  assert (E2 : exp (- (2 * x)) >= exp (- (162/100)) * (262/100 - 2 * x)).
  { replace (- (2 * x)) with (- (162/100) + (162/100 - 2 * x)) by ring. rewrite exp_plus.
    pose proof (exp_ineq1_le (162/100 - 2 * x)). pose proof (exp_pos (- (162/100))). nra. }
  assert (E3 : 1 - x <= exp (- (2 * x))) by nra.
  rewrite exp_Ropp in E3. pose proof (exp_pos (2 * x)).
  apply Rmult_le_reg_r with (/ exp (2 * x)); [apply Rinv_0_lt_compat; auto|].
  rewrite Rmult_assoc, Rinv_r by lra. lra.
Qed.
Lemma ci_approximate_total mean r n chi : 8 <= n -> 0 < chi -> 0 <= r <= 1 ->
  (sqrt (chi / (2 * n)) <= r -> exists p, ci_approximate mean r n chi = Ok (Some p)) /\
  (r < sqrt (chi / (2 * n)) -> ci_approximate mean r n chi = Err ValueError).
Proof.
  intros Hn Hc Hr. split.
  - intros Hs. destruct (approx_rad_bounds r n chi Hn Hr ltac:(lra) Hs) as [B1 B2].
    assert (Hp : 0 < r).
    { assert (0 < sqrt (chi / (2 * n))); [|lra]. apply sqrt_lt_R0.
      apply Rmult_lt_0_compat; [lra|apply Rinv_0_lt_compat; lra]. }
    assert (Hnr : 0 < n * r) by (apply Rmult_lt_0_compat; lra).
    assert (Rad : 0 <= approx_rad r n chi <= (n * r) * (n * r)).
    { unfold approx_rad. destruct (Rleb_spec r (9/10)).
      - split.
        + apply Rmult_le_pos; [|left; apply Rinv_0_lt_compat; lra].
          apply Rmult_le_pos; [lra|]. simpl. nra.
        + apply Rmult_le_reg_r with (4 * n - chi); [lra|].
          replace (2 * n * (2 * (n * r) ^ 2 - n * chi) / (4 * n - chi) * (4 * n - chi))
            with (2 * n * (2 * (n * r) ^ 2 - n * chi)) by (field; lra).
          assert (0 <= chi * (2 * n ^ 2 - (n * r) ^ 2)).
          { apply Rmult_le_pos; [lra|]. destruct (sq_bound n r Hr). lra. }
          nra.
      - assert (X : (1 - r * r) * exp (chi / n) <= 1).
        { apply Rle_trans with ((1 - r * r) * exp (2 * (r * r))).
          - apply Rmult_le_compat_l; [nra|].
            destruct (Req_dec (chi / n) (2 * (r * r))) as [->|N]; [lra|]. left. apply exp_increasing.
            assert (chi / n <= 2 * (r * r)); [|lra].
            apply Rmult_le_reg_r with n; [lra|]. unfold Rdiv. rewrite Rmult_assoc, Rinv_l by lra. lra.
          - apply exp_bound_2x. nra. }
        assert (Y : 1 <= exp (chi / n)).
        { rewrite <- exp_0. left. apply exp_increasing. apply Rmult_lt_0_compat; [lra|apply Rinv_0_lt_compat; lra]. }
        assert (Z : n ^ 2 - (n * r) ^ 2 = n * n * (1 - r * r)) by (simpl; ring).
        rewrite Z. split.
        + assert (0 <= n * n * (1 - (1 - r * r) * exp (chi / n))) by (apply Rmult_le_pos; nra).
          simpl. nra.
        + assert (0 <= n * n * (1 - r * r) * (exp (chi / n) - 1)).
          { apply Rmult_le_pos; [apply Rmult_le_pos; nra|lra]. }
          simpl. nra. }
    assert (I : 0 <= approx_inner r n chi <= 1).
    { unfold approx_inner. split.
      - apply Rmult_le_pos; [apply sqrt_pos|left; apply Rinv_0_lt_compat; auto].
      - apply Rmult_le_reg_r with (n * r); auto. unfold Rdiv. rewrite Rmult_assoc, Rinv_l by lra.
        rewrite Rmult_1_r, Rmult_1_l. rewrite <- (sqrt_square (n * r)) by lra. apply sqrt_le_1; lra. }
    unfold ci_approximate. fold (approx_rad r n chi). fold (approx_inner r n chi).
    destruct (Rltb_spec n 8); [lra|]. destruct (Rltb_spec r (sqrt (chi / (2 * n)))); [lra|].
    destruct (Rltb_spec (approx_rad r n chi) 0); [lra|]. destruct (Reqb_spec (n * r) 0); [lra|].
    cbn [orb]. destruct (Rltb_spec 1 (approx_inner r n chi)); [lra|].
    destruct (Rltb_spec (approx_inner r n chi) (-1)); [lra|]. cbn [orb].
    rewrite orient_centred by (apply acos_half, I). eexists; reflexivity.
  - intros Hs. unfold ci_approximate. destruct (Rltb_spec n 8); [lra|].
    destruct (Rltb_spec r (sqrt (chi / (2 * n)))); [reflexivity|lra].
Qed.
Lemma ci_dispersion_some s mean z lb ub : 0 < z -> ci_dispersion s mean z = Ok (Some (lb, ub)) ->
  exists d0, 0 <= d0 /\ (forall z' lb' ub', 0 < z' -> ci_dispersion s mean z' = Ok (Some (lb', ub')) ->
    0 <= d0 * z' <= 1 /\ lb' = angmod0 (mean - asin (d0 * z')) /\ ub' = angmod0 (mean + asin (d0 * z'))).
Proof.
  intros _ _. exists (sqrt (circ_dispersion s / wtotal s)). split; [apply sqrt_pos|].
  intros z' lb' ub' Hz. unfold ci_dispersion.
  destruct (Rltb_spec (wtotal s) 25); [discriminate|].
  destruct (Reqb_spec (circ_r_s s) 0); [destruct (Reqb _ 1); discriminate|].
  destruct (Rltb_spec (circ_dispersion s / wtotal s) 0); [discriminate|].
  set (q := sqrt (circ_dispersion s / wtotal s)).
  destruct (Rleb_spec 1 (q * z')); [discriminate|].
  destruct (Rltb_spec (q * z') (-1)); [discriminate|].
  assert (I : 0 <= q * z' <= 1) by (split; [apply Rmult_le_pos; [apply sqrt_pos|lra]|lra]).
  rewrite orient_centred by (apply asin_half, I). intros E. injection E as <- <-. auto.
Qed.
Lemma ci_dispersion_contains s mean z lb ub : 0 < z -> ci_dispersion s mean z = Ok (Some (lb, ub)) ->
  on_ccw_arc mean lb ub /\ (exists d, centred_arc mean d lb ub) /\
  0 <= lb < 2 * PI /\ 0 <= ub < 2 * PI.
Proof.
  intros Hz E. destruct (ci_dispersion_some s mean z lb ub Hz E) as (q & _ & H).
  destruct (H z lb ub Hz E) as (I & -> & ->).
  assert (Cn : centred_arc mean (asin (q * z)) (angmod0 (mean - asin (q * z))) (angmod0 (mean + asin (q * z)))).
  { split; [apply asin_half, I|]. split; apply angmod0_same_dir. }
  split; [eapply centred_ccw, Cn|]. split; [eexists; exact Cn|]. split; apply angmod0_range.
Qed.
Lemma ci_dispersion_wider s mean z z' lb ub lb' ub' : 0 < z -> z <= z' ->
  ci_dispersion s mean z = Ok (Some (lb, ub)) -> ci_dispersion s mean z' = Ok (Some (lb', ub')) ->
  exists d d', centred_arc mean d lb ub /\ centred_arc mean d' lb' ub' /\ d <= d'.
Proof.
  intros Hz Hzz E E'. destruct (ci_dispersion_some s mean z lb ub Hz E) as (q & Hq & H).
  destruct (H z lb ub Hz E) as (I & -> & ->). destruct (H z' lb' ub' ltac:(lra) E') as (I' & -> & ->).
  exists (asin (q * z)), (asin (q * z')).
  split; [split; [apply asin_half, I|split; apply angmod0_same_dir]|].
  split; [split; [apply asin_half, I'|split; apply angmod0_same_dir]|].
  apply asin_incr; try lra. apply Rmult_le_compat_l; lra.
Qed.
