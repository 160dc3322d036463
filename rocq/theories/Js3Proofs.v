(** The Jones-Pewsey sampler is a rejection sampler for its density. *)
From Verif Require Import Prelude NpModel NpProofs UtilsModel DescModel Desc2Model Desc2Proofs CircleSpec IntSpec IntProofs DistModel DistSpec DistProofs Dist2Proofs Dist4Proofs Dist5Proofs
  Dist6Proofs Dist7Proofs Dist8Proofs KjProofs Kj2Proofs VonModel VonSpec VonProofs Von2Proofs Von3Proofs Von4Proofs Von6Proofs GaussProofs Ws2Proofs Ws3Proofs JpModel JpSpec JpProofs JsModel JsProofs Js2Proofs.

Lemma cos_quad x : 0 <= x -> 1 - x ^ 2 / 2 <= cos x.
Proof.
  intros H. pose proof (mono_of_dlim (fun y => cos y - 1 + y ^ 2 / 2) (fun y => y - sin y) 0 x) as M.
  assert (E : cos 0 - 1 + 0 ^ 2 / 2 <= cos x - 1 + x ^ 2 / 2).
  { apply M; try lra.
    - intros y _. eapply dlim_eq; [|apply (dlim_plus (fun y => cos y - 1) (fun y => y ^ 2 / 2)); [apply (dlim_minus cos (fun _ => 1)); [apply derivable_pt_lim_cos|apply dlim_const]|
        apply (dlim_divc 2 (fun y => y ^ 2)); apply (dlim_ext (fun y => y * y)); [intros; ring|apply (dlim_mult (fun y => y) (fun y => y)); apply dlim_id]]]. field.
    - intros y [Hy _]. destruct Hy as [Hy| <-]; [pose proof (sin_lt_x y Hy); lra|rewrite sin_0; lra]. }
  rewrite cos_0 in E. lra.
Qed.
Lemma ln_le x y : 0 < x -> x <= y -> ln x <= ln y.
Proof. intros H [L| ->]; [left; apply ln_increasing; assumption|lra]. Qed.
Lemma ln_ftiny : - 1022 <= ln ftiny.
Proof.
  unfold ftiny. rewrite ln_Rinv by (apply pow_lt; lra). rewrite ln_pow by lra. pose proof ln2_range as L2. replace (INR 1022) with 1022; [lra|]. rewrite INR_IZR_INZ. f_equal.
Qed.
Lemma ftiny_small : ftiny <= / (2 * PI).
Proof.
  pose proof ftiny_exp as F. pose proof PI_4. pose proof PI_RGT_0. assert (E : exp (- 500) <= / 501).
  { replace (- 500) with (- (500)) by lra. rewrite exp_Ropp. apply Rinv_le_contravar; [lra|]. pose proof (exp_ge1 500). lra. }
  assert (/ 501 <= / (2 * PI)) by (apply Rinv_le_contravar; lra). lra.
Qed.

Lemma ln_kernel kappa psi phi : jp_ptol <= Rabs psi -> Rabs (kappa * psi) <= 500 ->
  ln (jp_kernel kappa psi phi) = 1 / psi * ln (cosh (kappa * psi) + sinh (kappa * psi) * cos phi).
Proof. intros Hp HA. rewrite jp_kernel_big by assumption. unfold Rpower, jp_base. rewrite ln_exp. reflexivity. Qed.
(** The peak of the density for psi > 0. *)
Lemma jp_peak iv kappa psi Z : is_iv iv -> jp_ktol <= kappa -> jp_ptol <= psi -> kappa * psi <= 500 -> integral (jp_kernel kappa psi) 0 (2 * PI) Z -> 0 < Z ->
  (forall phi, jp_kernel kappa psi phi <= exp kappa) /\ / (2 * PI) <= exp kappa / Z /\ ln (exp kappa / Z) <= 17.
Proof.
  intros H Hk Hp HA I Z0. pose proof PI_RGT_0 as P. pose proof PI_gt3. assert (T : 0 < jp_ktol) by (unfold jp_ktol; lra). assert (T2 : / 10 ^ 6 <= psi) by (unfold jp_ptol in Hp; lra). set (A := kappa * psi) in *.
  assert (A0 : 0 <= A) by (unfold A; nra). assert (P1 : jp_ptol <= Rabs psi) by (rewrite Rabs_pos_eq; lra). assert (P2 : Rabs (kappa * psi) <= 500) by (fold A; rewrite Rabs_pos_eq; lra).
  assert (Kp : forall phi, ln (jp_kernel kappa psi phi) <= kappa).
  { intros phi. rewrite (ln_kernel kappa psi phi P1 P2). fold A. pose proof (COS_bound phi) as C. pose proof (sinh_nonneg A A0) as S. pose proof (base_pos A (cos phi) C) as B.
    assert (L : ln (cosh A + sinh A * cos phi) <= A) by (rewrite <- (ln_exp A) at 3; apply ln_le; [exact B|]; rewrite <- cosh_sinh_p; nra).
    replace kappa with (1 / psi * A) at 1 by (unfold A; field; lra). apply Rmult_le_compat_l; [|exact L]. unfold Rdiv. rewrite Rmult_1_l. apply Rlt_le, Rinv_0_lt_compat. lra. }
  assert (Kl : forall phi, exp (kappa * cos phi) <= jp_kernel kappa psi phi).
  { intros phi. rewrite <- (exp_ln (jp_kernel kappa psi phi)) by apply jp_kernel_pos. apply expm_le. rewrite (ln_kernel kappa psi phi P1 P2). fold A. pose proof (ln_chord A (cos phi) (COS_bound phi)) as L.
    replace (kappa * cos phi) with (1 / psi * (A * cos phi)) by (unfold A; field; lra). apply Rmult_le_compat_l; [|exact L]. unfold Rdiv. rewrite Rmult_1_l. apply Rlt_le, Rinv_0_lt_compat. lra. }
  assert (K1 : forall phi, jp_kernel kappa psi phi <= exp kappa).
  { intros phi. rewrite <- (exp_ln (jp_kernel kappa psi phi)) by apply jp_kernel_pos. apply expm_le, Kp. }
  split; [exact K1|]. split.
  - assert (B : Z <= exp kappa * (2 * PI - 0)).
    { apply (integral_le (jp_kernel kappa psi) (fun _ => exp kappa) 0 (2 * PI) _ _ ltac:(lra)); [intros; apply K1|exact I|apply integral_const]. }
    apply Rmult_le_reg_r with Z; [exact Z0|]. unfold Rdiv. rewrite Rmult_assoc, Rinv_l, Rmult_1_r by lra. apply Rmult_le_reg_l with (2 * PI); [lra|]. rewrite <- Rmult_assoc, Rinv_r by lra. lra.
  - assert (B : 2 * PI * iv 0%nat kappa <= Z).
    { apply (integral_le (vE kappa) (jp_kernel kappa psi) 0 (2 * PI) _ _ ltac:(lra)); [intros; apply Kl|apply i0_int, H|exact I]. }
    pose proof (i0_arc iv kappa (/ 10 ^ 5) H ltac:(lra) ltac:(lra)) as G. pose proof (cos_quad (/ 10 ^ 5) ltac:(lra)) as C.
    assert (kmax : kappa <= 5 * 10 ^ 8) by (unfold A in HA; nra).
    assert (G2 : exp (kappa - 1) <= exp (kappa * cos (/ 10 ^ 5))) by (apply expm_le; nra).
    assert (G3 : 2 * / 10 ^ 5 * exp (kappa - 1) <= Z).
    { apply Rle_trans with (2 * PI * iv 0%nat kappa); [|exact B]. apply Rle_trans with (2 * PI * (/ 10 ^ 5 / PI * exp (kappa * cos (/ 10 ^ 5)))); [|apply Rmult_le_compat_l; lra].
      replace (2 * PI * (/ 10 ^ 5 / PI * exp (kappa * cos (/ 10 ^ 5)))) with (2 * / 10 ^ 5 * exp (kappa * cos (/ 10 ^ 5))) by (field; lra). apply Rmult_le_compat_l; lra. }
    assert (LZ : ln (2 * / 10 ^ 5) + (kappa - 1) <= ln Z).
    { rewrite <- (ln_exp (kappa - 1)), <- ln_mult by (try apply exp_pos; lra). apply ln_le; [|exact G3]. pose proof (exp_pos (kappa - 1)). lra. }
    assert (L5 : - 16 <= ln (2 * / 10 ^ 5)).
    { replace (2 * / 10 ^ 5) with (/ 50000) by lra. rewrite ln_Rinv by lra. assert (ln 50000 <= ln (2 ^ 16)) by (apply ln_le; lra). rewrite ln_pow in H1 by lra. pose proof ln2_range. replace (INR 16) with 16 in H1 by (simpl; lra). lra. }
    unfold Rdiv. rewrite ln_mult, ln_Rinv, ln_exp by (try apply exp_pos; try apply Rinv_0_lt_compat; assumption). lra.
Qed.
(** The concentration of the chosen envelope is small where the shape is wide. *)
Lemma env_small iv mu pdf F c psi kappa K M m : is_iv iv -> 0 < c -> 0 < psi -> 0 < kappa -> (forall x, 0 < pdf x) -> (forall x, pdf x <= F) -> ftiny <= F -> ln F <= 17 -> ln F = ln c + kappa ->
  (forall x, ln (pdf x) = ln c + 1 / psi * ln (cosh (kappa * psi) + sinh (kappa * psi) * cos (x - mu))) ->
  m = env_ratio iv (env_grid pdf mu) mu K -> / 10 ^ 6 <= K -> m <= env_ratio iv (env_grid pdf mu) mu (1 / 2) -> M = Rmax (exp (m + ln (1 + 2 / 100))) (101 / 100) ->
  K <= 5 \/ psi * K ^ 2 <= 2500.
Proof.
  intros H Hc Hp Hk Hpos HF TF LF EF EL Hm K0 Hle HM. pose proof PI_RGT_0 as P. pose proof ftiny_pos as T0. pose proof (i0_pos iv K H) as I0. pose proof (i0_pos iv (1 / 2) H) as I1.
  assert (Up : m <= ln F + 1 + ln (2 * PI)).
  { apply Rle_trans with (1 := Hle). apply ratio_le; [exact H|lra|]. intros i Hi. rewrite ln_mult by lra. pose proof (ln_i0_half iv H) as Lh. pose proof (COS_bound (env_node i)).
    assert (ln (Rmax (pdf (pymod (mu + env_node i) (2 * PI))) ftiny) <= ln F).
    { apply ln_le; [pose proof (Rmax_r (pdf (pymod (mu + env_node i) (2 * PI))) ftiny); lra|]. apply Rmax_lub; [apply HF|exact TF]. }
    lra. }
  pose proof (ln_i0_low iv K H ltac:(lra)) as LI.
  pose proof (ratio_ge iv pdf mu K (Z.to_nat 512) H K0 ltac:(lia)) as G1. rewrite <- Hm in G1. rewrite node_quarter, cos_PI2, ln_mult in G1 by lra.
  pose proof (ratio_ge iv pdf mu K (Z.to_nat 1024) H K0 ltac:(lia)) as G2. rewrite <- Hm in G2. rewrite node_half, cos_PI, ln_mult in G2 by lra.
  set (x1 := pymod (mu + PI / 2) (2 * PI)) in *. set (x2 := pymod (mu + PI) (2 * PI)) in *.
  assert (Q1 : ln c + kappa - 1 / psi <= ln (Rmax (pdf x1) ftiny)).
  { apply Rle_trans with (ln (pdf x1)); [|apply ln_le; [apply Hpos|apply Rmax_l]]. rewrite EL. assert (Ex : cos (x1 - mu) = 0) by (unfold x1; rewrite <- node_quarter, node_cos, node_quarter; apply cos_PI2).
    rewrite Ex, Rmult_0_r, Rplus_0_r. assert (L : kappa * psi - 1 <= ln (cosh (kappa * psi))).
    { pose proof ln2_range as L2. apply Rle_trans with (ln (exp (kappa * psi) / 2)).
      - unfold Rdiv. rewrite ln_mult, ln_Rinv, ln_exp by (try apply exp_pos; lra). lra.
      - apply ln_le; [pose proof (exp_pos (kappa * psi)); lra|]. unfold cosh. pose proof (exp_pos (- (kappa * psi))). lra. }
    replace (ln c + kappa - 1 / psi) with (ln c + 1 / psi * (kappa * psi - 1)) by (field; lra). apply Rplus_le_compat_l, Rmult_le_compat_l; [|exact L]. unfold Rdiv. rewrite Rmult_1_l. apply Rlt_le, Rinv_0_lt_compat, Hp. }
  assert (Q2 : - 1022 <= ln (Rmax (pdf x2) ftiny)).
  { pose proof ln_ftiny. apply Rle_trans with (ln ftiny); [lra|]. apply ln_le; [exact T0|apply Rmax_r]. }
  assert (B1 : K <= 22 / 5 + 2 / psi) by (replace (2 / psi) with (2 * (1 / psi)) by (field; lra); lra).
  assert (B2 : K <= 698) by lra.
  destruct (Rle_lt_dec 4 psi) as [S|S].
  - left. assert (1 / psi <= / 4) by (unfold Rdiv; rewrite Rmult_1_l; apply Rinv_le_contravar; lra). replace (2 / psi) with (2 * (1 / psi)) in B1 by (field; lra). lra.
  - right. destruct (Rle_lt_dec psi (5 / 1000)) as [W|W].
    + assert (K ^ 2 <= 698 ^ 2) by (apply pow_incr; lra). assert (psi * K ^ 2 <= 5 / 1000 * 698 ^ 2) by (apply Rmult_le_compat; try lra; apply pow2_ge_0). lra.
    + assert (K ^ 2 <= (22 / 5 + 2 / psi) ^ 2) by (apply pow_incr; lra). assert (E : psi * (22 / 5 + 2 / psi) ^ 2 = 484 / 25 * psi + 88 / 5 + 4 / psi) by (field; lra).
      assert (I2 : / psi <= 200) by (replace 200 with (/ (5 / 1000)) by lra; apply Rinv_le_contravar; lra). assert (psi * K ^ 2 <= psi * (22 / 5 + 2 / psi) ^ 2) by (apply Rmult_le_compat_l; lra). unfold Rdiv in *. lra.
Qed.
Lemma jp_dominates iv lpmv quad mu kappa psi K M : is_iv iv -> is_lpmv lpmv -> 0 <= mu <= 2 * PI -> jp_ktol <= kappa -> jp_ptol <= Rabs psi -> Rabs (kappa * psi) <= 500 ->
  quad_exact quad (fun x => jp_kernel kappa psi (x - mu)) (- PI) PI -> jp_envelope iv lpmv quad mu kappa psi = (K, M) ->
  0 < K /\ 1 < M /\ forall x, jp_pdf iv lpmv quad mu kappa psi x <= M * von_pdf iv mu K x.
Proof.
  intros H Hl Hm Hk Hp HA HQ HE. destruct (jp_c_mass iv lpmv quad mu kappa psi H Hl Hm Hk HA HQ) as (Z & Z0 & I & EZ). destruct (envelope_spec _ _ _ _ _ _ HE) as (m & E1 & E2 & E3 & E4).
  assert (T : 0 < jp_ktol) by (unfold jp_ktol; lra). assert (T2 : 0 < jp_ptol) by (unfold jp_ptol; lra).
  split; [lra|]. split; [rewrite E4; pose proof (Rmax_r (exp (m + ln (1 + 2 / 100))) (101 / 100)); lra|]. intros x.
  set (pdf := jp_pdf iv lpmv quad mu kappa psi) in *. assert (c0 : 0 < 1 / Z) by (unfold Rdiv; rewrite Rmult_1_l; apply Rinv_0_lt_compat, Z0).
  assert (Ep : forall y, pdf y = 1 / Z * jp_kernel kappa psi (y - mu)) by (intros y; unfold pdf; rewrite jp_pdf_kernel, EZ by exact Hk; reflexivity).
  assert (Hpos : forall y, 0 < pdf y) by (intros y; rewrite Ep; apply Rmult_lt_0_compat; [exact c0|apply jp_kernel_pos]).
  assert (EL : forall y, ln (pdf y) = ln (1 / Z) + 1 / psi * ln (cosh (kappa * psi) + sinh (kappa * psi) * cos (y - mu))).
  { intros y. rewrite Ep, ln_mult, ln_kernel by (try apply jp_kernel_pos; assumption). reflexivity. }
  assert (X : exists i, (i < Z.to_nat 2048)%nat /\ jp_gap psi (kappa * psi) K (cos (x - mu)) <= jp_gap psi (kappa * psi) K (cos (env_node i)) + ln (1 + 2 / 100)).
  { assert (L02 : 0 < ln (1 + 2 / 100)) by (rewrite <- ln_1; apply ln_increasing; lra). destruct (Rlt_le_dec psi 0) as [N|N].
    - destruct (gap_neg psi (kappa * psi) K (cos (x - mu)) N (COS_bound _)) as [G|G].
      + exists 0%nat. split; [lia|]. rewrite node_0, cos_0. lra.
      + exists (Z.to_nat 1024). split; [lia|]. rewrite node_half, cos_PI. lra.
    - assert (Pp : jp_ptol <= psi) by (rewrite Rabs_pos_eq in Hp by exact N; exact Hp). assert (PA : 0 < kappa * psi) by nra. rewrite Rabs_pos_eq in HA by lra.
      destruct (jp_peak iv kappa psi Z H Hk Pp HA I Z0) as (F1 & F2 & F3).
      apply gap_pos; try lra; [|apply COS_bound]. apply (env_small iv mu pdf (exp kappa / Z) (1 / Z) psi kappa K M m); try assumption; try lra.
      + intros y. rewrite Ep. unfold Rdiv. rewrite Rmult_1_l, Rmult_comm. apply Rmult_le_compat_r; [apply Rlt_le, Rinv_0_lt_compat, Z0|apply F1].
      + pose proof ftiny_small. lra.
      + unfold Rdiv. rewrite Rmult_1_l, ln_mult, ln_exp by (try apply exp_pos; apply Rinv_0_lt_compat, Z0). ring. }
  destruct X as (i & Hi & G). apply (dominate iv pdf mu K M m x i); try assumption; try lra. rewrite !EL, node_cos. unfold jp_gap in G. lra.
Qed.
