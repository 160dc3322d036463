(** wrapnorm: sign of the truncated series; accuracy of cdf. *)
From Coq Require Import Machin.
From Verif Require Import Prelude NpModel NpProofs UtilsModel UtilsProofs DescModel DescProofs CircleSpec IntSpec IntProofs DistModel DistSpec DistProofs Dist2Proofs Dist4Proofs Dist5Proofs
  Dist6Proofs Dist7Proofs Dist8Proofs KjProofs Kj2Proofs Kj6Proofs Kj7Proofs Von2Proofs Von3Proofs Von4Proofs Von5Proofs Von6Proofs WnModel WnSpec WnProofs FourierProofs GaussProofs Wn2Proofs Wn3Proofs Wn4Proofs Wn5Proofs.

Lemma pi_hi : PI <= 81 / 25.
Proof.
  destruct (PI_2_3_7_ineq 0) as [_ H]. cbn in H. unfold tg_alt, PI_2_3_7_tg, Ratan_seq in H. cbn in H. lra.
Qed.
(** ** Sign *)
Lemma cpoly_tail r k t : 0 < r < 1 -> Rabs (cpoly (fun p => r ^ (p ^ 2)) (k + 29) t - cpoly (fun p => r ^ (p ^ 2)) 29 t) * (1 - r) <= r ^ 900 / 3 * (1 - r ^ k).
Proof.
  intros Hr. pose proof PI_gt3 as HP. set (c := r ^ 900). assert (Pc : 0 < c) by (apply pow_lt; lra).
  induction k as [|k IH]; cbn [Nat.add]; [rewrite Rminus_diag_eq, Rabs_R0 by reflexivity; cbn [pow]; lra|].
  rewrite cpoly_S. set (M := S (k + 29)). set (d := r ^ (M ^ 2) * cos (INR M * t) / PI). assert (Pk : 0 < r ^ k) by (apply pow_lt; lra).
  assert (Hd : Rabs d <= c / 3 * r ^ k).
  { assert (A : r ^ (M ^ 2) <= c * r ^ k) by (unfold c; rewrite <- pow_add; apply pow_mono_dec; [lra|]; unfold M; cbn [Nat.pow]; nia).
    assert (PM : 0 < r ^ (M ^ 2)) by (apply pow_lt; lra). unfold d, Rdiv. rewrite !Rabs_mult. rewrite (Rabs_pos_eq (r ^ (M ^ 2))) by lra.
    rewrite (Rabs_pos_eq (/ PI)) by (apply Rlt_le, Rinv_0_lt_compat; lra). assert (C1 : Rabs (cos (INR M * t)) <= 1) by (apply Rabs_le, COS_bound). pose proof (Rabs_pos (cos (INR M * t))).
    assert (I : / PI <= / 3) by (apply Rinv_le_contravar; lra). assert (I0 : 0 < / PI) by (apply Rinv_0_lt_compat; lra).
    apply Rle_trans with (c * r ^ k * / 3); [|lra]. apply Rmult_le_compat; [apply Rmult_le_pos; lra|lra|nra|exact I]. }
  replace (cpoly (fun p => r ^ (p ^ 2)) (k + 29) t + d - cpoly (fun p => r ^ (p ^ 2)) 29 t) with (cpoly (fun p => r ^ (p ^ 2)) (k + 29) t - cpoly (fun p => r ^ (p ^ 2)) 29 t + d) by ring.
  set (B := cpoly (fun p => r ^ (p ^ 2)) (k + 29) t - cpoly (fun p => r ^ (p ^ 2)) 29 t) in *.
  pose proof (Rabs_triang B d) as T. change (r ^ S k) with (r * r ^ k).
  assert (Rabs (B + d) * (1 - r) <= (Rabs B + c / 3 * r ^ k) * (1 - r)) by (apply Rmult_le_compat_r; lra). nra.
Qed.
Definition T1 (r : R) : R := r ^ 900 / (3 * (1 - r)).
Lemma cpoly_tail2 r N t : 0 < r < 1 -> (29 <= N)%nat -> Rabs (cpoly (fun p => r ^ (p ^ 2)) N t - cpoly (fun p => r ^ (p ^ 2)) 29 t) <= T1 r.
Proof.
  intros Hr L. pose proof (cpoly_tail r (N - 29) t Hr) as T. replace (N - 29 + 29)%nat with N in T by lia.
  assert (Pc : 0 < r ^ 900) by (apply pow_lt; lra). assert (Pk : 0 < r ^ (N - 29)) by (apply pow_lt; lra). unfold T1. set (c := r ^ 900) in *.
  apply Rmult_le_reg_r with (1 - r); [lra|]. replace (c / (3 * (1 - r)) * (1 - r)) with (c / 3) by (field; lra). nra.
Qed.
Lemma wn_lower_incr Phi m sg x y : is_ndtr Phi -> 0 < sg -> 0 <= m <= 2 * PI -> x <= y ->
  GN (rho_of sg) m 29 x - wF Phi m sg 0 x + T1 (rho_of sg) * x <= GN (rho_of sg) m 29 y - wF Phi m sg 0 y + T1 (rho_of sg) * y.
Proof.
  intros H Hs Hm Hxy. pose proof (rho_of_range sg Hs) as Hr. set (r := rho_of sg) in *. apply le_epsilon. intros e He.
  destruct (poisson Phi m sg x H Hs Hm (e / 2) ltac:(lra)) as [N1 H1]. destruct (poisson Phi m sg y H Hs Hm (e / 2) ltac:(lra)) as [N2 H2].
  set (N := (N1 + N2 + 29)%nat). specialize (H1 N ltac:(unfold N; lia)). specialize (H2 N ltac:(unfold N; lia)). unfold R_dist in *. rewrite Rminus_0_r in *.
  apply Rabs_def2 in H1. apply Rabs_def2 in H2. fold r in H1, H2.
  assert (G : GN r m 29 x - GN r m N x + T1 r * x <= GN r m 29 y - GN r m N y + T1 r * y).
  { apply (mono_of_dlim (fun x => GN r m 29 x - GN r m N x + T1 r * x) (fun x => cpoly (fun p => r ^ (p ^ 2)) 29 (x - m) - cpoly (fun p => r ^ (p ^ 2)) N (x - m) + T1 r * 1) x y); try lra.
    - intros t _. apply dlim_plus; [apply dlim_minus; apply GN_d|apply dlim_scal, dlim_id].
    - intros t _. pose proof (cpoly_tail2 r N (t - m) Hr ltac:(unfold N; lia)) as C. apply abs_le_inv in C. lra. }
  pose proof (wF_diff_incr Phi m sg 0 N x y H Hs Hxy) as W. rewrite Nat.add_0_r in W. lra.
Qed.
Lemma wn_lower Phi m sg x : is_ndtr Phi -> 0 < sg -> 0 <= m <= 2 * PI -> wu m sg x - T1 (rho_of sg) <= wn_pdf m (rho_of sg) x.
Proof.
  intros H Hs Hm. set (f := fun x => GN (rho_of sg) m 29 x - wF Phi m sg 0 x + T1 (rho_of sg) * x).
  assert (D : forall t, derivable_pt_lim f t (wn_pdf m (rho_of sg) t - wu m sg t + T1 (rho_of sg) * 1)).
  { intros t. apply dlim_plus; [|apply dlim_scal, dlim_id]. rewrite wn_cpoly. apply dlim_minus; [apply GN_d|]. exact (wF_d Phi m sg 0 t H). }
  pose proof (nonneg_derivative_0 f (fun t => exist _ _ (D t)) (fun a b L => wn_lower_incr Phi m sg a b H Hs Hm L) x) as P. cbn in P. lra.
Qed.
Lemma wn_near m x : exists z : Z, Rabs (x + 2 * PI * IZR z - m) <= PI.
Proof.
  pose proof PI_RGT_0 as HP. destruct (pymod_cong (x - m + PI) (2 * PI)) as [k Hk]. pose proof (pymod_range (x - m + PI) (2 * PI) ltac:(lra)). exists (- k)%Z. rewrite opp_IZR. apply Rabs_le. lra.
Qed.
Lemma wn_per_z m r x (z : Z) : wn_pdf m r (x + 2 * PI * IZR z) = wn_pdf m r x.
Proof.
  unfold wn_pdf. do 3 f_equal. apply Rsum_ext_map. intros p _. f_equal.
  replace (INR p * (x + 2 * PI * IZR z - m)) with (INR p * (x - m) + 2 * PI * IZR (Z.of_nat p * z)) by (rewrite mult_IZR, <- INR_IZR_INZ; ring).
  destruct (Z_le_gt_dec 0 (Z.of_nat p * z)) as [L|L].
  - replace (Z.of_nat p * z)%Z with (Z.of_nat (Z.to_nat (Z.of_nat p * z))) by lia. rewrite <- INR_IZR_INZ.
    match goal with |- cos (?a + 2 * PI * ?n) = _ => replace (a + 2 * PI * n) with (a + 2 * n * PI) by ring end. apply cos_period.
  - set (q := Z.to_nat (- (Z.of_nat p * z))). rewrite <- (cos_period (INR p * (x - m) + 2 * PI * IZR (Z.of_nat p * z)) q). f_equal. unfold q. rewrite (INR_IZR_INZ (Z.to_nat _)), Z2Nat.id by lia. rewrite opp_IZR. ring.
Qed.
Lemma wn_pos m r x : 0 <= m <= 2 * PI -> 0 < r <= 94 / 100 -> 0 < wn_pdf m r x.
Proof.
  intros Hm Hr. destruct (Rle_lt_dec r (1 / 3)) as [L|L]; [apply wn_pos_small; lra|].
  destruct ndtr_exists as [Phi H]. pose proof PI_gt3 as HP. pose proof pi_hi as HP2.
  destruct (wn_near m x) as [z Hz]. rewrite <- (wn_per_z m r x z). set (y := x + 2 * PI * IZR z) in *.
  assert (R15 : / 10 ^ 15 < / 2) by (apply Rinv_lt_contravar; lra).
  destruct (sigma_spec r) as [E _].
  { split; [apply Rlt_trans with (1 / 3); [lra|exact L]|]. assert (/ 10 ^ 15 <= 6 / 100) by lra. lra. }
  set (sg := wn_sigma r) in *. pose proof (wn_sigma_pos r) as Hs. fold sg in Hs.
  pose proof (wn_lower Phi m sg y H Hs Hm) as W. rewrite E in W. apply Rlt_le_trans with (2 := W).
  set (Lr := 1 / 2 * sg ^ 2). assert (ER : r = exp (- Lr)) by (rewrite <- E; unfold rho_of, Lr; f_equal; field).
  assert (S2 : 0 < sg ^ 2) by (apply pow_lt; exact Hs). assert (L0 : 0 < Lr) by (unfold Lr; lra).
  assert (L1 : 6 / 100 <= Lr). { pose proof (exp_ineq1 (- Lr) ltac:(lra)). lra. }
  assert (L2 : Lr <= 5 / 2).
  { apply Rnot_lt_le. intros B. assert (exp (- Lr) < exp (- (5 / 2))) as EXL by (apply exp_increasing; lra).
    assert (10 <= exp (5 / 2)) by (rewrite <- (exp_ln 10) by lra; apply expm_le, ln10_le). assert (exp (- (5 / 2)) <= / 10) by (rewrite exp_Ropp; apply Rinv_le_contravar; lra).
    lra. }
  (* the Gaussian term *)
  assert (G : / (sqrt (2 * PI) * sg) * exp (- (PI ^ 2 / (4 * Lr))) <= wu m sg y).
  { unfold wu, nphi, gz. pose proof c2pi as C2. replace (/ (sqrt (2 * PI) * sg)) with (/ sqrt (2 * PI) * (1 / sg)) by (field; lra).
    assert (I1 : 0 < / sqrt (2 * PI)) by (apply Rinv_0_lt_compat; lra). assert (I2 : 0 < 1 / sg) by (apply Rdiv_lt_0_compat; lra).
    replace (/ sqrt (2 * PI) * exp (- (1 / 2) * ((y - m) * (1 / sg)) ^ 2) * (1 / sg)) with (/ sqrt (2 * PI) * (1 / sg) * exp (- (1 / 2) * ((y - m) * (1 / sg)) ^ 2)) by ring.
    apply Rmult_le_compat_l; [apply Rmult_le_pos; lra|]. apply expm_le.
    replace (- (PI ^ 2 / (4 * Lr))) with (- (1 / 2) * (PI * (1 / sg)) ^ 2) by (unfold Lr; field; lra).
    rewrite !Rpow_mult_distr. apply abs_le_inv in Hz. assert ((y - m) ^ 2 <= PI ^ 2) by nra. assert (0 < (1 / sg) ^ 2) by (apply pow_lt; lra). nra. }
  assert (SQ : sqrt (2 * PI) * sg <= 6).
  { apply Rsqr_incr_0_var; [|lra]. unfold Rsqr. replace (sqrt (2 * PI) * sg * (sqrt (2 * PI) * sg)) with ((sqrt (2 * PI) * sqrt (2 * PI)) * sg ^ 2) by ring.
    rewrite sqrt_sqrt by lra. unfold Lr in L2. nra. }
  pose proof c2pi as C2. assert (SP : 0 < sqrt (2 * PI) * sg) by (apply Rmult_lt_0_compat; lra).
  assert (I6 : / 6 <= / (sqrt (2 * PI) * sg)) by (apply Rinv_le_contravar; lra).
  assert (T : T1 r <= exp (- (900 * Lr)) * (100 / 18)).
  { unfold T1. replace (r ^ 900) with (exp (- (900 * Lr))).
    - unfold Rdiv at 1. apply Rmult_le_compat_l; [apply Rlt_le, exp_pos|]. replace (100 / 18) with (/ (18 / 100)) by field. apply Rinv_le_contravar; lra.
    - rewrite ER, exp_pow. f_equal. replace (INR 900) with 900; [ring|]. rewrite INR_IZR_INZ. reflexivity. }
  assert (X : 10 <= 900 * Lr - PI ^ 2 / (4 * Lr)).
  { assert (PI ^ 2 / (4 * Lr) <= 44).
    { apply Rmult_le_reg_r with (4 * Lr); [lra|]. replace (PI ^ 2 / (4 * Lr) * (4 * Lr)) with (PI ^ 2) by (field; lra). assert (PI ^ 2 <= (81 / 25) ^ 2) by (apply pow_incr; lra). nra. }
    lra. }
  assert (Y : 1024 * exp (- (900 * Lr)) <= exp (- (PI ^ 2 / (4 * Lr)))).
  { apply Rle_trans with (exp 10 * exp (- (900 * Lr))).
    - apply Rmult_le_compat_r; [apply Rlt_le, exp_pos|]. replace (exp 10) with (exp 1 ^ 10) by (rewrite exp_pow; f_equal; cbn; ring).
      replace 1024 with (2 ^ 10) by ring. apply pow_incr. pose proof (exp_ineq1 1 ltac:(lra)). lra.
    - rewrite <- exp_plus. apply expm_le. lra. }
  pose proof (exp_pos (- (900 * Lr))) as Z1. pose proof (exp_pos (- (PI ^ 2 / (4 * Lr)))) as Z2.
  assert (/ 6 * exp (- (PI ^ 2 / (4 * Lr))) <= / (sqrt (2 * PI) * sg) * exp (- (PI ^ 2 / (4 * Lr)))) by (apply Rmult_le_compat_r; lra). lra.
Qed.
