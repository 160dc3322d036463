(** The asymmetric Jones-Pewsey sampler: where its envelope is above the density and where it is not. *)
From Verif Require Import Prelude NpModel NpProofs UtilsModel DescModel Desc2Model Desc2Proofs CircleSpec IntSpec IntProofs DistModel DistSpec DistProofs Dist2Proofs Dist4Proofs Dist5Proofs
  Dist6Proofs Dist7Proofs Dist8Proofs KjProofs Kj2Proofs VonModel VonSpec VonProofs Von2Proofs Von3Proofs Von4Proofs Von6Proofs GaussProofs Ws2Proofs Ws3Proofs Wn6Proofs
  JpModel JpSpec JpProofs Jp2Proofs Jp5Proofs Jp6Proofs FtSpec IbModel IbProofs JsModel JsProofs Js2Proofs Js3Proofs.

(** ** The slope of the log-density *)
Lemma sinh_le_cosh x : 0 <= x -> sinh x <= x * cosh x.
Proof.
  intros H. pose proof (mono_of_dlim (fun y => y * cosh y - sinh y) (fun y => y * sinh y) 0 x) as M.
  assert (E : 0 * cosh 0 - sinh 0 <= x * cosh x - sinh x).
  { apply M; try lra.
    - intros y _. eapply dlim_eq; [|apply (dlim_minus (fun y => y * cosh y) sinh); [apply (dlim_mult (fun y => y) cosh); [apply dlim_id|apply derivable_pt_lim_cosh]|apply derivable_pt_lim_sinh]]. ring.
    - intros y Hy. pose proof (sinh_nonneg y ltac:(lra)). nra. }
  rewrite sinh_0 in E. lra.
Qed.
Definition lk (kappa psi y : R) : R := ln (jp_kernel kappa psi y).
Definition lk' (kappa psi y : R) : R :=
  if Rltb (Rabs psi) jp_ptol then kappa * - sin y else 1 / psi * (sinh (kappa * psi) * - sin y / (cosh (kappa * psi) + sinh (kappa * psi) * cos y)).
Lemma lk_d kappa psi y : Rabs (kappa * psi) <= 500 -> derivable_pt_lim (lk kappa psi) y (lk' kappa psi y).
Proof.
  intros HA. unfold lk'. destruct (Rltb (Rabs psi) jp_ptol) eqn:E.
  - apply (dlim_ext (fun y => kappa * cos y)); [|apply (dlim_scal kappa cos); apply derivable_pt_lim_cos]. intros x. unfold lk, jp_kernel. rewrite E, ln_exp. reflexivity.
  - apply Rltb_false in E. apply (dlim_ext (fun y => 1 / psi * ln (cosh (kappa * psi) + sinh (kappa * psi) * cos y))).
    + intros x. unfold lk. rewrite ln_kernel by assumption. reflexivity.
    + apply dlim_scal. eapply dlim_eq; [|apply (dlim_ln (fun y => cosh (kappa * psi) + sinh (kappa * psi) * cos y) y (sinh (kappa * psi) * - sin y)); [apply base_pos, COS_bound|]]; [unfold Rdiv; ring|].
      eapply dlim_eq; [|apply (dlim_plus (fun _ => cosh (kappa * psi)) (fun y => sinh (kappa * psi) * cos y)); [apply dlim_const|apply dlim_scal; apply derivable_pt_lim_cos]]. ring.
Qed.
Lemma sin_base A y : Rabs (sin y) <= cosh A + sinh A * cos y.
Proof.
  pose proof (base_pos A (cos y) (COS_bound y)) as B. pose proof (cosh_sq A) as C. pose proof (sin2_cos2 y) as T. unfold Rsqr in T.
  rewrite <- (Rabs_pos_eq (cosh A + sinh A * cos y)) by lra. apply Rsqr_le_abs_0. unfold Rsqr.
  assert (E : (cosh A + sinh A * cos y) * (cosh A + sinh A * cos y) - sin y * sin y = (sinh A + cosh A * cos y) ^ 2).
  { replace (sin y * sin y) with (1 - cos y * cos y) by lra. replace (1 - cos y * cos y) with ((cosh A ^ 2 - sinh A ^ 2) * (1 - cos y * cos y)) by (rewrite C; ring). ring_simplify. nra. }
  pose proof (pow2_ge_0 (sinh A + cosh A * cos y)). lra.
Qed.
Lemma lk'_bound kappa psi y : 0 <= kappa -> Rabs (lk' kappa psi y) <= kappa * cosh (kappa * psi).
Proof.
  intros Hk. pose proof (SIN_bound y) as S. assert (Sa : Rabs (sin y) <= 1) by (apply Rabs_le; lra). pose proof (cosh_ge1 (kappa * psi)) as C. pose proof (Rabs_pos (sin y)). unfold lk'. destruct (Rltb (Rabs psi) jp_ptol) eqn:E.
  - rewrite Rabs_mult, Rabs_Ropp, (Rabs_pos_eq kappa) by exact Hk. assert (kappa * Rabs (sin y) <= kappa * 1) by (apply Rmult_le_compat_l; lra). nra.
  - apply Rltb_false in E. assert (P0 : 0 < Rabs psi) by (unfold jp_ptol in E; lra). set (A := kappa * psi) in *. pose proof (base_pos A (cos y) (COS_bound y)) as B. pose proof (sin_base A y) as SB.
    replace (1 / psi * (sinh A * - sin y / (cosh A + sinh A * cos y))) with (/ psi * sinh A * (- sin y / (cosh A + sinh A * cos y))) by (field; split; [lra|intros ->; rewrite Rabs_R0 in P0; lra]).
    rewrite !Rabs_mult, Rabs_Rinv by (intros ->; rewrite Rabs_R0 in P0; lra).
    assert (Q1 : Rabs (- sin y / (cosh A + sinh A * cos y)) <= 1).
    { unfold Rdiv. rewrite Rabs_mult, Rabs_Ropp, Rabs_Rinv, (Rabs_pos_eq (cosh A + sinh A * cos y)) by lra. apply Rmult_le_reg_r with (cosh A + sinh A * cos y); [exact B|]. rewrite Rmult_assoc, Rinv_l by lra. lra. }
    assert (Q2 : Rabs (sinh A) <= Rabs A * cosh A).
    { rewrite sinh_abs. destruct (Rle_dec 0 A) as [N|N].
      - rewrite Rabs_pos_eq by exact N. apply sinh_le_cosh, N.
      - rewrite Rabs_left by lra. rewrite <- sinh_neg, <- (cosh_neg A). apply sinh_le_cosh. lra. }
    assert (Q3 : / Rabs psi * Rabs (sinh A) <= kappa * cosh A).
    { apply Rmult_le_reg_l with (Rabs psi); [exact P0|]. rewrite <- Rmult_assoc, Rinv_r by lra. replace (Rabs A) with (kappa * Rabs psi) in Q2 by (unfold A; rewrite Rabs_mult, (Rabs_pos_eq kappa) by exact Hk; reflexivity). lra. }
    pose proof (Rabs_pos (- sin y / (cosh A + sinh A * cos y))). assert (0 <= / Rabs psi * Rabs (sinh A)) by (apply Rmult_le_pos; [apply Rlt_le, Rinv_0_lt_compat, P0|apply Rabs_pos]). nra.
Qed.
Lemma as_slope kappa psi nu a b : 0 <= kappa -> Rabs (kappa * psi) <= 500 -> 0 <= nu -> a <= b ->
  Rabs (ln (as_kernel kappa psi nu a) - ln (as_kernel kappa psi nu b)) <= (1 + nu) * kappa * cosh (kappa * psi) * (b - a).
Proof.
  intros Hk HA Hn Hab. set (S := (1 + nu) * kappa * cosh (kappa * psi)). set (g := fun t => lk kappa psi (t + nu * cos t)). set (g' := fun t => lk' kappa psi (t + nu * cos t) * (1 + nu * - sin t)).
  assert (D : forall t, derivable_pt_lim g t (g' t)).
  { intros t. unfold g, g'. apply (dlim_comp (lk kappa psi) (fun t => t + nu * cos t)); [|apply lk_d, HA].
    apply (dlim_plus (fun t => t) (fun t => nu * cos t)); [apply dlim_id|apply dlim_scal; apply derivable_pt_lim_cos]. }
  assert (B : forall t, Rabs (g' t) <= S).
  { intros t. unfold g'. rewrite Rabs_mult. pose proof (lk'_bound kappa psi (t + nu * cos t) Hk) as L. pose proof (SIN_bound t). assert (N : Rabs (1 + nu * - sin t) <= 1 + nu) by (apply Rabs_le; nra).
    pose proof (Rabs_pos (lk' kappa psi (t + nu * cos t))). pose proof (Rabs_pos (1 + nu * - sin t)). unfold S. replace ((1 + nu) * kappa * cosh (kappa * psi)) with (kappa * cosh (kappa * psi) * (1 + nu)) by ring. apply Rmult_le_compat; lra. }
  change (ln (as_kernel kappa psi nu a)) with (g a). change (ln (as_kernel kappa psi nu b)) with (g b).
  assert (U : S * a - g a <= S * b - g b).
  { apply (mono_of_dlim (fun t => S * t - g t) (fun t => S - g' t) a b); try lra.
    - intros t _. eapply dlim_eq; [|apply (dlim_minus (fun t => S * t) g); [apply (dlim_scal S (fun t => t)); apply dlim_id|apply D]]. ring.
    - intros t _. pose proof (B t) as Bt. apply abs_le_inv in Bt. lra. }
  assert (V : S * a + g a <= S * b + g b).
  { apply (mono_of_dlim (fun t => S * t + g t) (fun t => S + g' t) a b); try lra.
    - intros t _. eapply dlim_eq; [|apply (dlim_plus (fun t => S * t) g); [apply (dlim_scal S (fun t => t)); apply dlim_id|apply D]]. ring.
    - intros t _. pose proof (B t) as Bt. apply abs_le_inv in Bt. lra. }
  apply Rabs_le. lra.
Qed.
Lemma kernel_range kappa psi y : 0 <= kappa -> Rabs (kappa * psi) <= 500 -> - kappa <= ln (jp_kernel kappa psi y) <= kappa.
Proof.
  intros Hk HA. pose proof (COS_bound y) as C. destruct (Rltb_spec (Rabs psi) jp_ptol) as [E|E].
  - unfold jp_kernel. rewrite (proj2 (Rltb_true _ _) E), ln_exp. nra.
  - rewrite ln_kernel by (try assumption; lra). assert (P0 : psi <> 0) by (intros ->; rewrite Rabs_R0 in E; unfold jp_ptol in E; lra). set (A := kappa * psi) in *. pose proof (base_pos A (cos y) C) as B.
    pose proof (ln_chord A (cos y) C) as L1. assert (L2 : ln (cosh A + sinh A * cos y) <= Rabs A).
    { rewrite <- (ln_exp (Rabs A)). apply ln_le; [exact B|]. destruct (Rle_lt_dec 0 A) as [N|N].
      - rewrite Rabs_pos_eq, <- cosh_sinh_p by exact N. pose proof (sinh_nonneg A N). nra.
      - rewrite Rabs_left, <- cosh_sinh_m by exact N. pose proof (sinh_nonneg (- A) ltac:(lra)) as S. rewrite sinh_neg in S. nra. }
    assert (L3 : - Rabs A <= ln (cosh A + sinh A * cos y)).
    { apply Rle_trans with (2 := L1). pose proof (Rabs_pos A). unfold Rabs in *. destruct (Rcase_abs A); nra. }
    assert (EA : Rabs A = kappa * Rabs psi) by (unfold A; rewrite Rabs_mult, (Rabs_pos_eq kappa) by exact Hk; reflexivity). assert (Pa : 0 < Rabs psi) by (apply Rabs_pos_lt, P0).
    assert (Q : Rabs (1 / psi * ln (cosh A + sinh A * cos y)) <= kappa).
    { rewrite Rabs_mult. unfold Rdiv. rewrite Rmult_1_l, Rabs_Rinv by exact P0. apply Rmult_le_reg_l with (Rabs psi); [exact Pa|]. rewrite <- Rmult_assoc, Rinv_r, Rmult_1_l by lra. rewrite (Rmult_comm (Rabs psi)), <- EA. apply Rabs_le. lra. }
    apply abs_le_inv in Q. lra.
Qed.

(** ** The nearest node *)
Lemma node_near phi : exists i z, (i < Z.to_nat 2048)%nat /\ Rabs (phi - (env_node i + 2 * PI * IZR z)) <= PI / 2048.
Proof.
  pose proof PI_RGT_0 as P. set (d := 2 * PI / 2048). assert (D : 0 < d) by (unfold d; lra). destruct (Rfloor_spec (phi / d + / 2)) as [F1 F2]. set (j := Rfloor (phi / d + / 2)) in *.
  exists (Z.to_nat (j mod 2048)), (j / 2048)%Z. pose proof (Z.mod_pos_bound j 2048 ltac:(lia)) as Mb. split; [apply Z2Nat.inj_lt; lia|].
  unfold env_node. rewrite INR_IZR_INZ, Z2Nat.id by lia. pose proof (Z.div_mod j 2048 ltac:(lia)) as DM.
  assert (E : IZR (j mod 2048) * (2 * PI / 2048) + 2 * PI * IZR (j / 2048) = IZR j * d).
  { rewrite DM at 3. rewrite plus_IZR, mult_IZR. unfold d. field. }
  rewrite E. assert (Ep : phi = phi / d * d) by (field; lra). rewrite Ep. replace (phi / d * d - IZR j * d) with ((phi / d - IZR j) * d) by ring.
  rewrite Rabs_mult, (Rabs_pos_eq d) by lra. replace (PI / 2048) with (/ 2 * d) by (unfold d; field). apply Rmult_le_compat_r; [lra|]. apply Rabs_le. lra.
Qed.
Lemma as_pdf_kernel quad xi kappa psi nu : 0 <= xi <= 2 * PI -> jp_ktol <= kappa -> quad_exact quad (fun x => as_kernel kappa psi nu (x - xi)) (- PI) PI ->
  exists Z, 0 < Z /\ integral (as_kernel kappa psi nu) 0 (2 * PI) Z /\ forall x, as_pdf quad xi kappa psi nu x = 1 / Z * as_kernel kappa psi nu (x - xi).
Proof.
  intros Hm K Hq. assert (T : 0 < jp_ktol) by (unfold jp_ktol; lra). pose proof (quad_mass _ xi _ Hm (as_kernel_cont kappa psi nu) (as_kernel_turns kappa psi nu) Hq) as Iq.
  pose proof (positive_mass _ _ (as_kernel_cont kappa psi nu) (fun x => jp_kernel_pos kappa psi (x + nu * cos x)) Iq) as Z0.
  exists (quad (fun x => as_kernel kappa psi nu (x - xi)) (- PI) PI). split; [exact Z0|]. split; [exact Iq|]. intros x. unfold as_pdf, as_c.
  rewrite (proj2 (Rltb_false (Rabs _) _)), (proj2 (Rltb_false kappa _)) by (try rewrite Rabs_pos_eq; lra). reflexivity.
Qed.

(** ** Wide shapes *)
Lemma as_dominates iv quad xi kappa psi nu K M : is_iv iv -> 0 <= xi <= 2 * PI -> jp_ktol <= kappa -> 0 <= nu -> Rabs (kappa * psi) <= 500 ->
  quad_exact quad (fun x => as_kernel kappa psi nu (x - xi)) (- PI) PI -> kappa * ((1 + nu) * cosh (kappa * psi) + 4 / 3) <= 21 / 2 -> as_envelope iv quad xi kappa psi nu = (K, M) ->
  0 < K /\ 1 < M /\ forall x, as_pdf quad xi kappa psi nu x <= M * von_pdf iv xi K x.
Proof.
  intros H Hm Hk Hn HA HQ HB HE. destruct (envelope_spec _ _ _ _ _ _ HE) as (m & E1 & E2 & E3 & E4). assert (T : 0 < jp_ktol) by (unfold jp_ktol; lra).
  split; [lra|]. split; [rewrite E4; pose proof (Rmax_r (exp (m + ln (1 + 2 / 100))) (101 / 100)); lra|]. intros x.
  destruct (as_pdf_kernel quad xi kappa psi nu Hm Hk HQ) as (Z & Z0 & I & Ep). set (pdf := as_pdf quad xi kappa psi nu) in *. pose proof PI_RGT_0 as P. pose proof pi_hi as P3.
  assert (c0 : 0 < 1 / Z) by (unfold Rdiv; rewrite Rmult_1_l; apply Rinv_0_lt_compat, Z0).
  assert (Hpos : forall y, 0 < pdf y) by (intros y; rewrite Ep; apply Rmult_lt_0_compat; [exact c0|apply jp_kernel_pos]).
  assert (EL : forall y, ln (pdf y) = ln (1 / Z) + ln (as_kernel kappa psi nu (y - xi))) by (intros y; rewrite Ep, ln_mult by (try apply jp_kernel_pos; assumption); reflexivity).
  set (F := exp kappa / Z). assert (KF : forall y, as_kernel kappa psi nu y <= exp kappa).
  { intros y. rewrite <- (exp_ln (as_kernel kappa psi nu y)) by apply jp_kernel_pos. apply expm_le. apply (kernel_range kappa psi (y + nu * cos y)); [lra|exact HA]. }
  assert (HF : forall y, pdf y <= F).
  { intros y. rewrite Ep. unfold F, Rdiv. rewrite Rmult_1_l, Rmult_comm. apply Rmult_le_compat_r; [apply Rlt_le, Rinv_0_lt_compat, Z0|apply KF]. }
  assert (LF : ln F = ln (1 / Z) + kappa) by (unfold F, Rdiv; rewrite Rmult_1_l, ln_mult, ln_exp by (try apply exp_pos; apply Rinv_0_lt_compat, Z0); ring).
  assert (TF : ftiny <= F).
  { apply Rle_trans with (1 := ftiny_small). assert (B : Z <= exp kappa * (2 * PI - 0)).
    { apply (integral_le (as_kernel kappa psi nu) (fun _ => exp kappa) 0 (2 * PI) _ _ ltac:(lra)); [intros; apply KF|exact I|apply integral_const]. }
    unfold F. apply Rmult_le_reg_r with Z; [exact Z0|]. unfold Rdiv. rewrite Rmult_assoc, Rinv_l, Rmult_1_r by lra. apply Rmult_le_reg_l with (2 * PI); [lra|]. rewrite <- Rmult_assoc, Rinv_r by lra. lra. }
  pose proof (i0_pos iv K H) as I0. pose proof (i0_pos iv (1 / 2) H) as I1. pose proof ftiny_pos as T0.
  assert (Up : m <= ln F + 1 + ln (2 * PI)).
  { apply Rle_trans with (1 := E3). apply ratio_le; [exact H|lra|]. intros i Hi. fold pdf. rewrite ln_mult by lra. pose proof (ln_i0_half iv H) as Lh. pose proof (COS_bound (env_node i)).
    assert (ln (Rmax (pdf (pymod (xi + env_node i) (2 * PI))) ftiny) <= ln F).
    { apply ln_le; [pose proof (Rmax_r (pdf (pymod (xi + env_node i) (2 * PI))) ftiny); lra|]. apply Rmax_lub; [apply HF|exact TF]. }
    lra. }
  pose proof (ln_i0_low iv K H ltac:(lra)) as LI. pose proof (ratio_ge iv pdf xi K (Z.to_nat 1024) H ltac:(lra) ltac:(lia)) as G2. rewrite <- E1 in G2. rewrite node_half, cos_PI, ln_mult in G2 by lra.
  set (x2 := pymod (xi + PI) (2 * PI)) in *. assert (Q2 : ln (1 / Z) - kappa <= ln (Rmax (pdf x2) ftiny)).
  { apply Rle_trans with (ln (pdf x2)); [|apply ln_le; [apply Hpos|apply Rmax_l]]. rewrite EL. pose proof (kernel_range kappa psi (x2 - xi + nu * cos (x2 - xi)) ltac:(lra) HA). unfold as_kernel. lra. }
  assert (BK : K <= 22 / 15 + 4 / 3 * kappa) by lra.
  destruct (node_near (x - xi)) as (i & z & Hi & N). destruct (pymod_cong (xi + env_node i) (2 * PI)) as [w Ew]. set (nd := pymod (xi + env_node i) (2 * PI)) in *.
  apply (dominate iv pdf xi K M m x i); try assumption; try lra. rewrite !EL. fold nd.
  assert (En : as_kernel kappa psi nu (nd - xi) = as_kernel kappa psi nu (env_node i + 2 * PI * IZR z)).
  { replace (env_node i + 2 * PI * IZR z) with (nd - xi + 2 * PI * IZR (w + z)) by (rewrite plus_IZR; lra). symmetry. apply as_kernel_turns. }
  rewrite En, <- (cos_turns (env_node i) z). set (a := env_node i + 2 * PI * IZR z) in *. set (b := x - xi) in *. set (S := (1 + nu) * kappa * cosh (kappa * psi)) in *.
  assert (S0 : 0 <= S) by (unfold S; pose proof (cosh_ge1 (kappa * psi)); apply Rmult_le_pos; [apply Rmult_le_pos; lra|lra]).
  assert (G : Rabs (ln (as_kernel kappa psi nu b) - ln (as_kernel kappa psi nu a)) <= S * (PI / 2048)).
  { destruct (Rle_lt_dec a b) as [L|L].
    - rewrite Rabs_minus_sym. pose proof (as_slope kappa psi nu a b ltac:(lra) HA Hn L) as Sl. fold S in Sl. rewrite Rabs_pos_eq in N by lra. assert (S * (b - a) <= S * (PI / 2048)) by (apply Rmult_le_compat_l; lra). lra.
    - pose proof (as_slope kappa psi nu b a ltac:(lra) HA Hn ltac:(lra)) as Sl. fold S in Sl. rewrite Rabs_left in N by lra. assert (S * (a - b) <= S * (PI / 2048)) by (apply Rmult_le_compat_l; lra). lra. }
  assert (Cc : Rabs (cos a - cos b) <= PI / 2048).
  { replace (cos a - cos b) with (- 2 * sin ((a - b) / 2) * sin ((a + b) / 2)) by (symmetry; apply form2). rewrite !Rabs_mult. replace (Rabs (- 2)) with 2 by (rewrite Rabs_left; lra).
    assert (X : forall y, 0 <= y -> Rabs (sin y) <= y).
    { intros y Hy. apply Rabs_le. destruct (Rle_lt_dec y 1) as [L|L]; [|pose proof (SIN_bound y); lra]. destruct Hy as [Hy| <-]; [|rewrite sin_0; lra]. pose proof (sin_lt_x y Hy). pose proof PI_gt3. pose proof (sin_ge_0 y ltac:(lra) ltac:(lra)). lra. }
    assert (Y : Rabs (sin ((a - b) / 2)) <= Rabs (b - a) / 2).
    { destruct (Rle_lt_dec a b) as [L|L].
      - rewrite (Rabs_pos_eq (b - a)) by lra. replace ((a - b) / 2) with (- ((b - a) / 2)) by field. rewrite sin_neg, Rabs_Ropp. apply X. lra.
      - rewrite (Rabs_left (b - a)) by lra. replace (- (b - a) / 2) with ((a - b) / 2) by field. apply X. lra. }
    assert (W : Rabs (sin ((a + b) / 2)) <= 1) by (apply Rabs_le; apply SIN_bound). pose proof (Rabs_pos (sin ((a - b) / 2))). pose proof (Rabs_pos (sin ((a + b) / 2))). nra. }
  pose proof (ln_low (1 + 2 / 100) ltac:(lra)) as L2. apply abs_le_inv in G. apply abs_le_inv in Cc.
  assert (K * (cos a - cos b) <= K * (PI / 2048)) by (apply Rmult_le_compat_l; lra).
  assert (SK : (S + K) * (PI / 2048) <= 12 * (81 / 25 / 2048)) by (apply Rmult_le_compat; unfold S in *; lra). lra.
Qed.
