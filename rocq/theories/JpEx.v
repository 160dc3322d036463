(** Examples for the Jones-Pewsey theorems: functions with the properties assumed of scipy exist. *)
From Verif Require Import Prelude NpModel NpProofs UtilsModel DescModel DescProofs Desc2Model CircleSpec IntSpec IntProofs DistModel DistSpec DistProofs Dist2Proofs Dist4Proofs Dist5Proofs
  Dist6Proofs Dist7Proofs Dist8Proofs KjProofs Kj2Proofs Kj3Proofs VonModel VonSpec VonProofs Von2Proofs Von3Proofs Von4Proofs Von5Proofs Von6Proofs VonEx
  JpModel JpSpec JpProofs Jp2Proofs Jp3Proofs Jp4Proofs Jp5Proofs Jp6Proofs Jp7Proofs Jp8Proofs.

Lemma laplace_cont nu z t : 1 <= z -> continuity_pt (fun t => Rpower (z + sqrt (z ^ 2 - 1) * cos t) nu) t.
Proof.
  intros Hz. assert (S0 : 0 <= sqrt (z ^ 2 - 1)) by apply sqrt_pos. assert (S2 : sqrt (z ^ 2 - 1) * sqrt (z ^ 2 - 1) = z ^ 2 - 1) by (apply sqrt_sqrt; nra).
  assert (S1 : sqrt (z ^ 2 - 1) < z) by nra. pose proof (COS_bound t) as C. unfold Rpower.
  apply (cont_comp exp (fun t => nu * ln (z + sqrt (z ^ 2 - 1) * cos t))); [|apply exp_cont]. apply cont_mult; [apply cont_const|].
  apply (cont_comp ln (fun t => z + sqrt (z ^ 2 - 1) * cos t)); [|apply ln_cont; nra]. apply cont_plus; [apply cont_const|]. apply cont_mult; [apply cont_const|apply cos_cont].
Qed.
Lemma lpmv_exists : exists lpmv, is_lpmv lpmv /\ forall nu z, 1 <= z -> exists v, lpmv nu z = Fin v.
Proof.
  assert (L : 0 <= 2 * PI) by (pose proof PI_RGT_0; lra).
  assert (C : forall nu z, 1 <= z -> forall t, 0 <= t <= 2 * PI -> continuity_pt (fun t => Rpower (z + sqrt (z ^ 2 - 1) * cos t) nu) t).
  { intros nu z Hz t _. apply laplace_cont; exact Hz. }
  assert (V : forall nu z, 1 <= z -> {v | integral (fun t => Rpower (z + sqrt (z ^ 2 - 1) * cos t) nu) 0 (2 * PI) v}).
  { intros nu z H. exists (RiemannInt (continuity_implies_RiemannInt L (C nu z H))). exists (continuity_implies_RiemannInt L (C nu z H)). reflexivity. }
  exists (fun nu z => match Rle_dec 1 z with left H => Fin (proj1_sig (V nu z H) / (2 * PI)) | right _ => NaN end).
  split.
  - intros nu z v Hz. destruct (Rle_dec 1 z) as [H|H]; [|contradiction]. destruct (V nu z H) as [r Hr]. simpl. intros E. injection E as <-.
    apply (integral_val _ _ _ r); [|exact Hr]. field. pose proof PI_RGT_0; lra.
  - intros nu z Hz. destruct (Rle_dec 1 z) as [H|H]; [|contradiction]. eexists. reflexivity.
Qed.
(** One value serves as the integral of a periodic kernel about every centre. *)
Lemma quad_exists (k : R -> R) : (forall x, continuity_pt k x) -> (forall x (z : Z), k (x + 2 * PI * IZR z) = k x) ->
  exists quad, forall mu, quad_exact quad (fun x => k (x - mu)) (- PI) PI.
Proof.
  intros Hc Ht. pose proof PI_gt3 as P3. destruct (continuous_integral k 0 (2 * PI) ltac:(lra) (fun x _ => Hc x)) as [M HM].
  exists (fun _ _ _ => M). intros mu. unfold quad_exact. apply int_shift_to; [lra|exact Hc|].
  replace (PI - mu) with (- PI - mu + 2 * PI) by ring. apply int_turn; assumption.
Qed.
Lemma jp_quad_exists kappa psi : exists quad, forall mu, quad_exact quad (fun x => jp_kernel kappa psi (x - mu)) (- PI) PI.
Proof. apply quad_exists; [apply jp_kernel_cont|intros x z; apply jp_kernel_turns]. Qed.
Lemma as_quad_exists kappa psi nu : exists quad, forall xi, quad_exact quad (fun x => as_kernel kappa psi nu (x - xi)) (- PI) PI.
Proof. apply quad_exists; [apply as_kernel_cont|intros x z; apply as_kernel_turns]. Qed.
(** A set of scipy functions for one kernel. *)
Lemma ex_scipy kappa psi : exists iv lpmv quad, is_iv iv /\ is_lpmv lpmv /\ (forall nu z, 1 <= z -> exists v, lpmv nu z = Fin v) /\
  forall mu, quad_exact quad (fun x => jp_kernel kappa psi (x - mu)) (- PI) PI.
Proof. destruct iv_exists as [iv H1]. destruct lpmv_exists as (lp & H2 & H3). destruct (jp_quad_exists kappa psi) as [q H4]. exists iv, lp, q. auto. Qed.
Lemma ex_jp_ok : jp_ok 1 2 (3 / 2) = true /\ Rabs (2 * (3 / 2)) <= 500.
Proof. pose proof PI_gt3. split; [apply jp_ok_spec; lra|rewrite Rabs_pos_eq; lra]. Qed.
Lemma ex_jp_one : jp_ok 1 2 1 = true /\ jp_ktol <= 2 <= 500.
Proof. pose proof PI_gt3. split; [apply jp_ok_spec; lra|unfold jp_ktol; lra]. Qed.
Lemma ex_ss_ok : ss_ok 1 2 (3 / 2) (- (1 / 2)) = true /\ Rabs (2 * (3 / 2)) <= 500 /\ Rabs (- (1 / 2)) < 1 /\ / 10 ^ 12 <= Rabs (- (1 / 2)).
Proof. pose proof PI_gt3. split; [apply ss_ok_spec; lra|]. rewrite Rabs_Ropp, !Rabs_pos_eq by lra. lra. Qed.
Lemma ex_ss_one : ss_ok 1 2 1 (1 / 2) = true.
Proof. pose proof PI_gt3. apply ss_ok_spec; lra. Qed.
Lemma ex_as_ok : as_ok 1 2 (3 / 2) (1 / 3) = true.
Proof. pose proof PI_gt3. apply as_ok_spec; lra. Qed.
Lemma ex_fit pdf : exists ll, jp_fit_moments pdf [(0, 15); (PI, 5)] = Ok (0, 221 / 192, 0, ll).
Proof. destruct (jp_two_fit pdf) as (ll & E & _). exists ll. exact E. Qed.
(** A Lipschitz asymmetric density that is not constant. *)
Lemma cos_lip a b : Rabs (cos a - cos b) <= Rabs (a - b).
Proof.
  replace (cos a - cos b) with (- 2 * sin ((a - b) / 2) * sin ((a + b) / 2)) by (symmetry; apply form2).
  rewrite !Rabs_mult. replace (Rabs (- 2)) with 2 by (rewrite Rabs_left; lra).
  assert (S1 : Rabs (sin ((a - b) / 2)) <= Rabs (a - b) / 2).
  { assert (H : forall y, 0 <= y -> Rabs (sin y) <= y).
    { intros y Hy. apply Rabs_le. destruct (Rle_lt_dec y 1) as [L|L].
      - destruct (Req_dec y 0) as [->|N]; [rewrite sin_0; lra|]. pose proof (sin_lt_x y ltac:(lra)). pose proof PI_gt3. pose proof (sin_ge_0 y ltac:(lra) ltac:(lra)). lra.
      - pose proof (SIN_bound y). lra. }
    destruct (Rle_lt_dec 0 (a - b)) as [D|D].
    - rewrite (Rabs_pos_eq (a - b)) by lra. apply H. lra.
    - rewrite (Rabs_left (a - b)) by lra. replace ((a - b) / 2) with (- (- (a - b) / 2)) by field. rewrite sin_neg, Rabs_Ropp. apply H. lra. }
  assert (S2 : Rabs (sin ((a + b) / 2)) <= 1) by (apply Rabs_le; pose proof (SIN_bound ((a + b) / 2)); lra).
  pose proof (Rabs_pos (sin ((a - b) / 2))). pose proof (Rabs_pos (sin ((a + b) / 2))). nra.
Qed.
Lemma ex_as_lip quad : quad_exact quad (fun x => as_kernel 1 1 (1 / 2) (x - 1)) (- PI) PI ->
  exists L, forall y z, Rabs (as_pdf quad 1 1 1 (1 / 2) y - as_pdf quad 1 1 1 (1 / 2) z) <= L * Rabs (y - z).
Proof.
  intros HQ. pose proof PI_gt3. exists (Rabs (as_c quad 1 1 1 (1 / 2)) * (sinh 1 * (3 / 2))). intros y z. unfold as_pdf.
  rewrite (proj2 (Rltb_false _ _)) by (rewrite Rabs_R1; unfold jp_ktol; lra). unfold as_kernel. rewrite !jp_kernel_one by lra.
  rewrite <- Rmult_minus_distr_l, Rabs_mult, Rmult_assoc. apply Rmult_le_compat_l; [apply Rabs_pos|].
  set (g := fun t => t - 1 + 1 / 2 * cos (t - 1)).
  replace (cosh 1 + sinh 1 * cos (y - 1 + 1 / 2 * cos (y - 1)) - (cosh 1 + sinh 1 * cos (z - 1 + 1 / 2 * cos (z - 1)))) with (sinh 1 * (cos (g y) - cos (g z))) by (unfold g; ring).
  pose proof (sinh_nonneg 1 ltac:(lra)) as S. rewrite Rabs_mult, (Rabs_pos_eq (sinh 1)), Rmult_assoc by exact S. apply Rmult_le_compat_l; [exact S|].
  eapply Rle_trans; [apply cos_lip|]. unfold g. replace (y - 1 + 1 / 2 * cos (y - 1) - (z - 1 + 1 / 2 * cos (z - 1))) with ((y - z) + 1 / 2 * (cos (y - 1) - cos (z - 1))) by ring.
  eapply Rle_trans; [apply Rabs_triang|]. rewrite Rabs_mult, (Rabs_pos_eq (1 / 2)) by lra. pose proof (cos_lip (y - 1) (z - 1)) as C. replace (y - 1 - (z - 1)) with (y - z) in C by ring. lra.
Qed.
(** How the sine-skewed cdf starts. *)
Lemma cos_series_bound a N t : (forall n, Rabs (a n) <= 1) -> Rabs (cos_series a N t) <= (1 + 2 * INR N) / (2 * PI).
Proof.
  intros Ha. pose proof PI_gt3. unfold cos_series. unfold Rdiv. rewrite Rabs_mult, (Rabs_pos_eq (/ (2 * PI))) by (left; apply Rinv_0_lt_compat; lra).
  apply Rmult_le_compat_r; [left; apply Rinv_0_lt_compat; lra|].
  assert (B : forall l, Rabs (Rsum (map (fun n => a n * cos (INR n * t)) l)) <= INR (length l)).
  { induction l as [|n l IH]; [simpl; rewrite Rabs_R0; lra|]. cbn [map length]. rewrite S_INR. change (Rsum (a n * cos (INR n * t) :: map (fun n => a n * cos (INR n * t)) l)) with (a n * cos (INR n * t) + Rsum (map (fun n => a n * cos (INR n * t)) l)).
    eapply Rle_trans; [apply Rabs_triang|]. assert (Rabs (a n * cos (INR n * t)) <= 1); [|lra]. rewrite Rabs_mult. pose proof (Ha n). pose proof (Rabs_pos (a n)).
    assert (Rabs (cos (INR n * t)) <= 1) by (apply Rabs_le; pose proof (COS_bound (INR n * t)); lra). pose proof (Rabs_pos (cos (INR n * t))). nra. }
  specialize (B (seq 1 N)). rewrite seq_length in B. eapply Rle_trans; [apply Rabs_triang|]. rewrite Rabs_R1, Rabs_mult, (Rabs_pos_eq 2) by lra. lra.
Qed.
Lemma ss_starts iv num lpmv quad xi kappa psi lam : ss_ok xi kappa psi lam = true -> jp_ktol <= kappa -> jp_ptol <= Rabs psi \/ / 10 ^ 12 <= Rabs lam ->
  forall x, 0 < x < 2 * PI -> 0 <= ss_cdf iv num lpmv quad xi kappa psi lam x <= 1026 / (2 * PI) * x.
Proof.
  intros Hok Hk Hp x Hx. pose proof (proj1 (ss_ok_spec _ _ _ _) Hok) as (_ & _ & Hlam). pose proof PI_gt3 as P3. destruct (ss_cdf_series iv num lpmv quad xi kappa psi lam Hk Hp) as (a & N & HN & Ha & HF).
  assert (Ba : forall n, Rabs (a n) <= 1) by (intros n; rewrite Ha; apply Rabs_le; apply clip_range; lra).
  set (f := fun t => cos_series a N (t - xi) * (1 + lam * sin (t - xi))).
  assert (Hc : forall t, 0 <= t <= x -> continuity_pt f t).
  { intros t _. unfold f. change (continuity_pt (fun t => (fun u => skew_series a N lam u) (t - xi)) t). apply (cont_comp (skew_series a N lam) (fun t => t - xi)); [|apply series_cont]. apply derivable_continuous_pt. reg. }
  destruct (continuous_integral f 0 x ltac:(lra) Hc) as [v V]. rewrite (HF x v Hx V).
  assert (B : forall t, 0 <= t <= x -> f t <= 1026 / (2 * PI)).
  { intros t _. unfold f. pose proof (cos_series_bound a N (t - xi) Ba) as B. pose proof (le_INR _ _ HN) as NI. assert (E256 : INR 256 = 256) by (rewrite INR_IZR_INZ; reflexivity). rewrite E256 in NI.
    assert (B1 : (1 + 2 * INR N) / (2 * PI) <= 513 / (2 * PI)) by (apply Rmult_le_compat_r; [left; apply Rinv_0_lt_compat; lra|lra]).
    apply abs_le_inv in B. pose proof (SIN_bound (t - xi)) as S. assert (S' : 0 <= 1 + lam * sin (t - xi) <= 2) by nra.
    replace (1026 / (2 * PI)) with (513 / (2 * PI) * 2) by (field; lra).
    assert (0 < 513 / (2 * PI)) by (apply Rdiv_lt_0_compat; lra). nra. }
  assert (Bv : v <= 1026 / (2 * PI) * x).
  { assert (L0 : 0 <= x) by lra. pose proof (integral_le _ _ _ _ _ _ L0 B V (integral_const 0 x (1026 / (2 * PI)))) as K. lra. }
  pose proof (clip_range v 0 1 ltac:(lra)) as CR. split; [lra|]. assert (0 <= 1026 / (2 * PI) * x) by (apply Rmult_le_pos; [left; apply Rdiv_lt_0_compat; lra|lra]).
  unfold clip, Rmin, Rmax. repeat destruct (Rle_dec _ _); lra.
Qed.
Lemma jp_von iv num lpmv quad mu kappa psi x : jp_ok mu kappa psi = true -> jp_ktol <= kappa -> Rabs psi < jp_ptol ->
  public_cdf (jp_ok mu kappa psi) (jp_cdf iv num lpmv quad mu kappa psi) x = public_cdf (von_ok mu kappa) (von_cdf iv num mu kappa) x.
Proof.
  intros Hok Hk Hp. pose proof (proj1 (jp_ok_spec _ _ _) Hok) as [Hm _]. assert (HV : von_ok mu kappa = true) by (apply von_ok_intro; unfold jp_ktol in Hk; lra).
  rewrite Hok, HV, !at_angle_pub. f_equal. transitivity (at_angle (von_F iv num mu kappa) x).
  - apply at_angle_ext. intros y. unfold jp_cdf. rewrite (proj2 (Rltb_false kappa _)), (proj2 (Rltb_true (Rabs psi) _)) by lra. reflexivity.
  - rewrite at_angle_F. reflexivity.
Qed.

Lemma jp_fit_rejects pdf s : s = [] \/ (exists d, In d s /\ snd d < 0) \/ Rsum (map snd s) <= 0 -> jp_fit_moments pdf s = Err ValueError.
Proof.
  intros H. unfold jp_fit_moments. destruct s as [|d0 s0]; [reflexivity|].
  destruct (existsb (fun p => Rltb (snd p) 0) (d0 :: s0)) eqn:E; [reflexivity|].
  destruct H as [H|[(d & Hd & Hn)|H]]; [discriminate| |].
  - exfalso. rewrite <- not_true_iff_false in E. apply E. apply existsb_exists. exists d. split; [exact Hd|apply Rltb_true; exact Hn].
  - replace (Rleb (wtotal (d0 :: s0)) 0) with true; [reflexivity|]. symmetry. apply Rleb_true. exact H.
Qed.
