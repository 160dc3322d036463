(** The flat-topped density with nu = 0 against the von Mises density, for every kappa. *)
From Verif Require Import Prelude NpModel NpProofs CircleSpec IntSpec IntProofs DistModel DistSpec DistProofs Dist2Proofs Dist4Proofs Dist5Proofs
  Dist6Proofs Dist7Proofs KjProofs Kj2Proofs VonModel VonSpec VonProofs Von2Proofs Von3Proofs Von4Proofs JpProofs Jp3Proofs Jp4Proofs Jp5Proofs Wn6Proofs Ws2Proofs Desc6Proofs FtModel FtSpec FtProofs Ft2Proofs Ft3Proofs AliasProofs.

Lemma exp_le a b : a <= b -> exp a <= exp b.
Proof. intros [H| ->]; [left; apply exp_increasing, H|lra]. Qed.
Lemma expcos_cont k x : continuity_pt (fun t => exp (k * cos t)) x.
Proof. apply derivable_continuous_pt. reg. Qed.
(** The integral is at least e^(k - 1/2) / 32. *)
Lemma expcos_mass k v : 0 <= k <= 1000 -> integral (fun t => exp (k * cos t)) 0 (2 * PI) v -> exp k * exp (- (1 / 2)) / 32 <= v.
Proof.
  intros Hk I. pose proof PI_gt3. destruct (continuous_integral (fun t => exp (k * cos t)) 0 (1 / 32)) as [a A]; [lra|intros; apply expcos_cont|].
  destruct (continuous_integral (fun t => exp (k * cos t)) (1 / 32) (2 * PI)) as [b B]; [lra|intros; apply expcos_cont|].
  rewrite (integral_unique _ _ _ _ _ I (integral_split _ _ _ _ _ _ A B)).
  assert (B0 : 0 * (2 * PI - 1 / 32) <= b). { refine (integral_le _ _ _ _ _ _ _ _ (integral_const _ _ 0) B); [lra|]. intros; left; apply exp_pos. }
  assert (A0 : exp (k + - (1 / 2)) * (1 / 32 - 0) <= a).
  { refine (integral_le _ _ _ _ _ _ _ _ (integral_const _ _ (exp (k + - (1 / 2)))) A); [lra|]. intros x Hx. apply exp_le. pose proof (Desc6Proofs.cos_ge x) as C.
    assert (x ^ 2 <= 1 / 1024) by nra. nra. }
  rewrite exp_plus in A0. lra.
Qed.
Lemma exp_half : 3 / 2 < exp (1 / 2) <= 1733 / 1000.
Proof.
  split; [pose proof (exp_ineq1 (1 / 2) ltac:(lra)); lra|]. apply Rnot_lt_le. intros C.
  assert (E : exp 1 = exp (1 / 2) * exp (1 / 2)) by (rewrite <- exp_plus; f_equal; field). pose proof exp_le_3. nra.
Qed.
Lemma exp_mhalf : exp (- (1 / 2)) * exp (1 / 2) = 1.
Proof. rewrite <- exp_plus, Rplus_opp_l. apply exp_0. Qed.
Lemma cosh_half : cosh (1 / 2) <= 12 / 10.
Proof. pose proof exp_half as [A B]. pose proof exp_mhalf as E. unfold cosh. assert (exp (- (1 / 2)) <= 667 / 1000); [|lra]. apply Rnot_lt_le. intros C. nra. Qed.
Lemma exp_m56 : exp (- (56)) <= (2 / 5) ^ 56.
Proof.
  rewrite exp_Ropp. replace ((2 / 5) ^ 56) with (/ (5 / 2) ^ 56) by (rewrite <- pow_inv; f_equal; field). apply Rinv_le_contravar; [apply pow_lt; lra|].
  replace (exp 56) with (exp 1 ^ 56) by (rewrite Wn3Proofs.exp_pow; f_equal; rewrite INR_IZR_INZ; cbn; ring). apply pow_incr. split; [lra|exact Jp5Proofs.exp1_lo].
Qed.
Lemma tiny56 : 4 * 4 * 32 * (1733 / 1000) * (2 / 5) ^ 56 <= 6 / 10 ^ 20.
Proof.
  assert (P : (2 / 5) ^ 56 = 2 ^ 56 / 5 ^ 56) by (unfold Rdiv; rewrite Rpow_mult_distr, pow_inv; reflexivity). rewrite P.
  apply Rmult_le_reg_r with (5 ^ 56 * 10 ^ 20 * 1000); [repeat apply Rmult_lt_0_compat; try apply pow_lt; lra|].
  replace (4 * 4 * 32 * (1733 / 1000) * (2 ^ 56 / 5 ^ 56) * (5 ^ 56 * 10 ^ 20 * 1000)) with (4 * 4 * 32 * 1733 * 2 ^ 56 * 10 ^ 20) by (field; apply pow_nonzero; lra).
  replace (6 / 10 ^ 20 * (5 ^ 56 * 10 ^ 20 * 1000)) with (6 * 5 ^ 56 * 1000) by (field; apply pow_nonzero; lra).
  rewrite !pow_IZR, <- !mult_IZR. apply IZR_le. vm_compute. discriminate.
Qed.
Lemma ft_T_0_rel kappa v : 0 <= kappa <= 1000 -> integral (fun t => exp (kappa * cos t)) 0 (2 * PI) v -> Rabs (ft_T kappa 0 - v) <= 6 / 10 ^ 20 * v.
Proof.
  intros Hk I. pose proof PI_gt3. pose proof PI_4 as P4. pose proof (ft_size_range kappa 0) as [HN _]. set (N := ft_size kappa 0) in *.
  assert (HN' : 0 < INR N) by (apply lt_0_INR; lia).
  assert (T : ft_T kappa 0 = 2 * PI / INR N * Rsum (map (fun j => exp (kappa * cos (node N j))) (seq 0 N))).
  { unfold ft_T. fold N. rewrite trap_periodic; [|lia|].
    - f_equal. apply Rsum_ext_map. intros j _. apply ft_shape_0.
    - rewrite node_0, node_N by lia. rewrite !ft_shape_0, cos_neg. reflexivity. }
  rewrite T. eapply Rle_trans; [apply (exp_alias N kappa (1 / 2) v ltac:(lia) ltac:(lra) ltac:(lra) I)|].
  pose proof (expcos_mass kappa v Hk I) as M. pose proof exp_half as [E1 E2]. pose proof exp_mhalf as E3. pose proof cosh_half as C. pose proof (cosh_ge1 (1 / 2)) as C1.
  assert (N5 : 512 <= INR N) by (replace 512 with (INR 512) by (rewrite INR_IZR_INZ; reflexivity); apply le_INR; lia).
  assert (X : exp (- (INR N * (1 / 2))) * exp (kappa * cosh (1 / 2)) <= exp kappa * exp (- (56))).
  { rewrite <- !exp_plus. apply exp_le. nra. }
  pose proof exp_m56 as Y. pose proof (exp_pos kappa) as K0. pose proof (exp_pos (- (56))) as F0. pose proof tiny56 as TI. pose proof (pow_lt (2 / 5) 56 ltac:(lra)) as W0.
  set (K := exp kappa) in *. set (W := (2 / 5) ^ 56) in *. set (h := exp (- (1 / 2))) in *. set (H' := exp (1 / 2)) in *.
  assert (KV : K <= 32 * (1733 / 1000) * v).
  { assert (h0 : 0 < h) by apply exp_pos. assert (K * (h * H') <= 32 * (1733 / 1000) * v); [|rewrite E3 in *; lra].
    assert (Mv : K * h <= 32 * v) by lra. assert (0 < K * h) by (apply Rmult_lt_0_compat; assumption).
    replace (K * (h * H')) with (K * h * H') by ring. apply Rle_trans with (K * h * (1733 / 1000)); [apply Rmult_le_compat_l; lra|lra]. }
  assert (v0 : 0 < v) by lra.
  apply Rle_trans with (4 * 4 * (K * W)).
  - rewrite Rmult_assoc. apply Rmult_le_compat; [lra| |lra|].
    + apply Rmult_le_pos; left; apply exp_pos.
    + eapply Rle_trans; [exact X|]. apply Rmult_le_compat_l; lra.
  - apply Rle_trans with (4 * 4 * 32 * (1733 / 1000) * W * v); [|apply Rmult_le_compat_r; lra].
    replace (4 * 4 * 32 * (1733 / 1000) * W * v) with (4 * 4 * (32 * (1733 / 1000) * v * W)) by ring.
    apply Rmult_le_compat_l; [lra|]. apply Rmult_le_compat_r; lra.
Qed.
Lemma ft_von_mises_all iv mu kappa x y : is_iv iv -> 0 <= mu <= 2 * PI -> / 10 ^ 9 < kappa <= 1000 ->
  ft_public_pdf mu kappa 0 x = Fin y -> Rabs (y - von_pdf iv mu kappa x) <= / 10 ^ 15 * von_pdf iv mu kappa x.
Proof.
  intros Hiv Hm Hk E. pose proof PI_gt3.
  assert (Hok : ft_ok mu kappa 0 = true) by (apply ft_ok_spec; lra). rewrite ft_public_eq in E by exact Hok. injection E as <-.
  rewrite ft_pdf_eq by lra. rewrite (proj2 (Rleb_false kappa ft_ktol)) by (unfold ft_ktol; lra). rewrite ft_shape_0. unfold von_pdf.
  pose proof (Hiv 0%nat kappa) as I0. assert (I : integral (fun t => exp (kappa * cos t)) 0 (2 * PI) (2 * PI * iv 0%nat kappa)).
  { refine (integral_ext _ _ _ _ _ _ _ I0); [lra|]. intros t _. cbn [INR]. rewrite Rmult_0_l, cos_0, Rmult_1_l. reflexivity. }
  pose proof (ft_T_0_rel kappa _ ltac:(lra) I) as B. pose proof (i0_ge1 iv kappa Hiv) as G. set (v := 2 * PI * iv 0%nat kappa) in *.
  assert (V : 2 * PI <= v) by (unfold v; nra). set (T := ft_T kappa 0) in *. pose proof (exp_pos (kappa * cos (x - mu))) as P. set (e := exp (kappa * cos (x - mu))) in *.
  apply abs_le_inv in B.
  assert (S1 : 6 / 10 ^ 20 <= / 10 ^ 18) by (unfold Rdiv; lra).
  assert (S2 : 0 < / 10 ^ 18) by (apply Rinv_0_lt_compat, pow_lt; lra).
  assert (T0 : v / 2 <= T) by (assert (/ 10 ^ 18 <= 1 / 2) by lra; nra).
  replace (e / T - e / v) with (e / v * ((v - T) / T)) by (field; lra). rewrite Rabs_mult, (Rabs_pos_eq (e / v)) by (apply Rlt_le, Rdiv_lt_0_compat; lra).
  rewrite (Rmult_comm (/ 10 ^ 15)). apply Rmult_le_compat_l; [apply Rlt_le, Rdiv_lt_0_compat; lra|].
  apply Rabs_le. assert (S3 : 2 * / 10 ^ 18 <= / 10 ^ 15) by lra.
  assert (Q : - (/ 10 ^ 15 * T) <= v - T <= / 10 ^ 15 * T) by nra.
  split; apply Rmult_le_reg_r with T; try lra; unfold Rdiv; rewrite ?(Rmult_assoc (v - T)), Rinv_l, ?Rmult_1_r by lra; lra.
Qed.
(** Up to kappa = 1e-9 the uniform density is used. *)
Lemma ft_von_mises_small iv mu kappa x y : is_iv iv -> 0 <= mu <= 2 * PI -> 0 <= kappa <= / 10 ^ 9 ->
  ft_public_pdf mu kappa 0 x = Fin y -> y = 1 / (2 * PI) /\ Rabs (y - von_pdf iv mu kappa x) <= / 10 ^ 8 * von_pdf iv mu kappa x.
Proof.
  intros Hiv Hm Hk E. pose proof PI_gt3. assert (K1 : kappa <= 1 / 1000000000) by (replace (1 / 1000000000) with (/ 10 ^ 9) by field; lra).
  assert (Hok : ft_ok mu kappa 0 = true) by (apply ft_ok_spec; lra). rewrite ft_public_eq in E by exact Hok. injection E as <-.
  rewrite ft_pdf_eq by lra. rewrite (proj2 (Rleb_true kappa ft_ktol)) by (unfold ft_ktol; lra). split; [reflexivity|]. unfold von_pdf.
  pose proof (Hiv 0%nat kappa) as I0. assert (I : integral (fun t => exp (kappa * cos t)) 0 (2 * PI) (2 * PI * iv 0%nat kappa)).
  { refine (integral_ext _ _ _ _ _ _ _ I0); [lra|]. intros t _. cbn [INR]. rewrite Rmult_0_l, cos_0, Rmult_1_l. reflexivity. }
  pose proof (i0_ge1 iv kappa Hiv) as G. set (b := iv 0%nat kappa) in *.
  assert (U : b <= exp kappa).
  { assert (2 * PI * b <= exp kappa * (2 * PI - 0)); [|nra]. refine (integral_le _ _ _ _ _ _ _ _ I (integral_const _ _ (exp kappa))); [lra|]. intros t _. apply exp_le. pose proof (COS_bound t). nra. }
  assert (K2 : exp kappa <= 1 + 3 * kappa) by (apply Ws2Proofs.exp1_hi; lra).
  set (e := exp (kappa * cos (x - mu))). pose proof (COS_bound (x - mu)) as CB.
  assert (e1 : e <= exp kappa) by (apply exp_le; nra). assert (e2 : 1 - kappa <= e) by (unfold e; pose proof (Von6Proofs.exp_ge1 (kappa * cos (x - mu))); nra).
  assert (e0 : 0 < e) by apply exp_pos.
  replace (1 / (2 * PI) - e / (2 * PI * b)) with (e / (2 * PI * b) * ((b - e) / e)) by (field; lra).
  rewrite Rabs_mult, (Rabs_pos_eq (e / (2 * PI * b))) by (apply Rlt_le, Rdiv_lt_0_compat; nra). rewrite (Rmult_comm (/ 10 ^ 8)).
  apply Rmult_le_compat_l; [apply Rlt_le, Rdiv_lt_0_compat; nra|]. replace (/ 10 ^ 8) with (1 / 100000000) by field.
  apply Rabs_le. split; apply Rmult_le_reg_r with e; try lra; unfold Rdiv at 1 2; rewrite ?(Rmult_assoc (b - e)), ?Rinv_l, ?Rmult_1_r by lra; nra.
Qed.

(** Total mass with nu = 0. *)
Lemma ft_mass_0 mu kappa f : 0 <= mu <= 2 * PI -> 0 <= kappa <= 1000 -> (forall x, ft_public_pdf mu kappa 0 x = Fin (f x)) ->
  exists M, integral f 0 (2 * PI) M /\ Rabs (M - 1) <= / 10 ^ 15.
Proof.
  intros Hm Hk E. pose proof PI_gt3. assert (Hok : ft_ok mu kappa 0 = true) by (apply ft_ok_spec; lra).
  destruct (ft_mass mu kappa 0 f Hok E) as (M & I & M0 & _). exists M. split; [exact I|]. destruct iv_exists as [iv Hiv].
  destruct (Rle_dec kappa (/ 10 ^ 9)) as [L|L].
  - assert (Q : forall x, f x = 1 / (2 * PI)) by (intros x; apply (ft_von_mises_small iv mu kappa x (f x) Hiv Hm ltac:(lra) (E x))).
    assert (M = 1); [|subst; rewrite Rminus_diag_eq, Rabs_R0 by reflexivity; left; apply Rinv_0_lt_compat, pow_lt; lra].
    apply (integral_unique _ _ _ _ _ I). replace 1 with (1 / (2 * PI) * (2 * PI - 0)) by (field; lra).
    apply (integral_ext (fun _ => 1 / (2 * PI))); [lra|intros x _; symmetry; apply Q|apply integral_const].
  - set (g := von_pdf iv mu kappa). pose proof (von_total iv mu kappa 0 Hiv : integral g 0 (0 + 2 * PI) 1) as G2. rewrite Rplus_0_l in G2.
    assert (B : forall x, Rabs (f x - g x) <= / 10 ^ 15 * g x) by (intros x; apply (ft_von_mises_all iv mu kappa x (f x) Hiv Hm ltac:(lra) (E x))).
    assert (P : 0 <= 2 * PI) by lra. set (e := / 10 ^ 15) in *.
    assert (U : M <= (1 + e) * 1) by (refine (integral_le _ _ 0 (2 * PI) _ _ P _ I (integral_scal _ _ _ (1 + e) _ P G2)); intros x _; specialize (B x); apply abs_le_inv in B; lra).
    assert (V : (1 - e) * 1 <= M) by (refine (integral_le _ _ 0 (2 * PI) _ _ P _ (integral_scal _ _ _ (1 - e) _ P G2) I); intros x _; specialize (B x); apply abs_le_inv in B; lra).
    apply Rabs_le. lra.
Qed.
