(** The asymmetric Jones-Pewsey sampler: a peak that falls between two nodes of the grid. *)
From Verif Require Import Prelude NpModel NpProofs UtilsModel DescModel Desc2Model Desc2Proofs CircleSpec IntSpec IntProofs DistModel DistSpec DistProofs Dist2Proofs Dist4Proofs Dist5Proofs
  Dist6Proofs Dist7Proofs Dist8Proofs KjProofs Kj2Proofs VonModel VonSpec VonProofs Von2Proofs Von3Proofs Von4Proofs Von6Proofs GaussProofs Ws2Proofs Ws3Proofs Wn6Proofs
  JpModel JpSpec JpProofs Jp2Proofs Jp5Proofs Jp6Proofs FtSpec IbModel IbProofs JsModel JsProofs Js2Proofs Js3Proofs Js4Proofs.

Lemma thin_mass Z : integral (as_kernel 14 (- 1) (/ 650)) 0 (2 * PI) Z -> Z <= 2 * PI * (650 / 649).
Proof.
  intros I. pose proof PI_gt3 as P. set (X := fun t => t + / 650 * cos t). set (X' := fun t => 1 + / 650 * - sin t).
  assert (C : forall x, continuity_pt (jp_kernel 14 (- 1)) x) by (intros; apply jp_kernel_cont).
  assert (J : integral (fun y => jp_kernel 14 (- 1) (X y) * X' y) 0 (2 * PI) (2 * PI)).
  { apply (substitution (jp_kernel 14 (- 1)) X X'); [lra| |exact C| | | |].
    - unfold X. rewrite cos_0, cos_2PI. lra.
    - intros x. apply (dlim_plus (fun t => t) (fun t => / 650 * cos t)); [apply dlim_id|apply dlim_scal; apply derivable_pt_lim_cos].
    - intros x. unfold X'. apply cont_plus; [apply cont_const|apply cont_mult; [apply cont_const|]]. apply continuity_pt_opp. apply derivable_continuous_pt, derivable_pt_sin.
    - intros x Hx. assert (Mo : forall a b, a <= b -> X a <= X b).
      { intros a b L. apply (mono_of_dlim X X' a b); try lra.
        - intros t _. apply (dlim_plus (fun t => t) (fun t => / 650 * cos t)); [apply dlim_id|apply dlim_scal; apply derivable_pt_lim_cos].
        - intros t _. unfold X'. pose proof (SIN_bound t). lra. }
      split; apply Mo; lra.
    - unfold X. rewrite cos_0, cos_2PI. replace (0 + / 650 * 1) with (/ 650) by ring. replace (2 * PI + / 650 * 1) with (/ 650 + 2 * PI) by ring.
      apply int_turn; [exact C|intros; apply jp_kernel_cosx, cos_turns|]. apply mass_mone. lra. }
  rewrite (Rmult_comm (2 * PI)).
  apply (integral_le (as_kernel 14 (- 1) (/ 650)) (fun y => 650 / 649 * (jp_kernel 14 (- 1) (X y) * X' y)) 0 (2 * PI) Z (650 / 649 * (2 * PI)) ltac:(lra)); [|exact I|apply integral_scal; [lra|exact J]].
  intros x _. unfold as_kernel. fold (X x). pose proof (jp_kernel_pos 14 (- 1) (X x)) as Q. pose proof (SIN_bound x). unfold X'.
  assert (649 / 650 * jp_kernel 14 (- 1) (X x) <= jp_kernel 14 (- 1) (X x) * (1 + / 650 * - sin x)) by nra. lra.
Qed.
Lemma thin_away y : / 1000 <= y <= 2 * PI - / 1000 -> jp_kernel 14 (- 1) y <= 43.
Proof.
  intros H. pose proof PI_gt3 as P. destruct (jp_kernel_mone 14 y ltac:(lra)) as [E D]. rewrite E. destruct exp14_facts as (S & O & _). pose proof exp14 as X. assert (0 < / exp 14) by (apply Rinv_0_lt_compat; lra).
  assert (C : cos y <= cos (/ 1000)).
  { destruct (Rle_lt_dec y PI) as [L|L]; [apply cos_decr_1; lra|]. replace (cos y) with (cos (2 * PI - y)) by (rewrite <- (cos_neg (2 * PI - y)); replace (- (2 * PI - y)) with (y - 2 * PI) by ring; rewrite cos_minus, cos_2PI, sin_2PI; ring). apply cos_decr_1; lra. }
  assert (C2 : cos (/ 1000) <= 1 - / 8000000).
  { replace (/ 1000) with (2 * / 2000) by lra. rewrite cos_2a_sin. pose proof (sin_ge3 (/ 2000) ltac:(lra)) as Sg. assert (/ 4000 <= sin (/ 2000)) by lra. nra. }
  assert (B : / 43 <= cosh 14 - sinh 14 * cos y) by nra. rewrite <- (Rinv_inv 43). apply Rinv_le_contravar; lra.
Qed.
Lemma thin_node i : (i < Z.to_nat 2048)%nat -> as_kernel 14 (- 1) (/ 650) (env_node i) <= 43.
Proof.
  intros H. pose proof PI_gt3 as P. pose proof pi_hi as P2. unfold as_kernel. apply thin_away. pose proof (COS_bound (env_node i)) as C. destruct i as [|i].
  - rewrite node_0, cos_0. lra.
  - assert (L1 : 1 <= INR (S i)) by (rewrite S_INR; pose proof (pos_INR i); lra).
    assert (L2 : INR (S i) <= 2047) by (rewrite INR_IZR_INZ; apply IZR_le; lia).
    assert (N1 : 2 * PI / 2048 <= env_node (S i)) by (unfold env_node; assert (0 < 2 * PI / 2048) by lra; nra).
    assert (N2 : env_node (S i) <= 2 * PI - 2 * PI / 2048) by (unfold env_node; assert (0 < 2 * PI / 2048) by lra; nra). lra.
Qed.
Lemma thin_peak : exists t, as_kernel 14 (- 1) (/ 650) t = exp 14.
Proof.
  destruct (IVT (fun t => t + / 650 * cos t) (- 1) 0) as (t & _ & Ht).
  - intros x. apply derivable_continuous_pt. exists (1 + / 650 * - sin x). apply (dlim_plus (fun t => t) (fun t => / 650 * cos t)); [apply dlim_id|apply dlim_scal; apply derivable_pt_lim_cos].
  - lra.
  - pose proof (COS_bound (- 1)). lra.
  - rewrite cos_0. lra.
  - exists t. unfold as_kernel. rewrite Ht. destruct (jp_kernel_mone 14 0 ltac:(lra)) as [E _]. rewrite E, cos_0, Rmult_1_r. destruct exp14_facts as (_ & O & _). rewrite O. apply Rinv_inv.
Qed.
Lemma von_cap iv mu K x : is_iv iv -> 0 <= K <= 10 ^ 4 -> von_pdf iv mu K x <= 175 / 2.
Proof.
  intros H HK. pose proof PI_gt3 as P. pose proof (i0_arc iv K (/ 100) H ltac:(lra) ltac:(lra)) as A. pose proof (i0_pos iv K H) as I0. pose proof (cos_quad (/ 100) ltac:(lra)) as Cq. pose proof (COS_bound (x - mu)) as Cb.
  assert (E : exp (K * cos (x - mu)) <= 7 / 4 * exp (K * cos (/ 100))).
  { apply Rle_trans with (exp (1 / 2 + K * cos (/ 100))); [apply expm_le; nra|]. rewrite exp_plus. apply Rmult_le_compat_r; [apply Rlt_le, exp_pos|].
    pose proof exp_le_3 as E3. replace 1 with (1 / 2 + 1 / 2) in E3 at 1 by lra. rewrite exp_plus in E3. pose proof (exp_pos (1 / 2)). nra. }
  unfold von_pdf. apply Rmult_le_reg_r with (2 * PI * iv 0%nat K); [nra|]. unfold Rdiv at 1. rewrite Rmult_assoc, Rinv_l, Rmult_1_r by nra. apply Rle_trans with (1 := E).
  apply Rmult_le_reg_l with (/ (175 * PI)); [apply Rinv_0_lt_compat; lra|]. replace (/ (175 * PI) * (175 / 2 * (2 * PI * iv 0%nat K))) with (iv 0%nat K) by (field; lra). apply Rle_trans with (2 := A). right. field. lra.
Qed.
Lemma as_missed iv quad xi K M : is_iv iv -> 0 <= xi <= 2 * PI -> quad_exact quad (fun x => as_kernel 14 (- 1) (/ 650) (x - xi)) (- PI) PI -> as_envelope iv quad xi 14 (- 1) (/ 650) = (K, M) ->
  exists x, 4 * (M * von_pdf iv xi K x) < as_pdf quad xi 14 (- 1) (/ 650) x.
Proof.
  intros H Hm HQ HE. destruct (envelope_spec _ _ _ _ _ _ HE) as (m & E1 & E2 & E3 & E4). destruct (as_pdf_kernel quad xi 14 (- 1) (/ 650) Hm ltac:(unfold jp_ktol; lra) HQ) as (Z & Z0 & I & Ep).
  pose proof (thin_mass Z I) as Z1. destruct thin_peak as (t & Ht). exists (xi + t). rewrite Ep. replace (xi + t - xi) with t by ring. rewrite Ht. pose proof exp14 as X. pose proof (von_cap iv xi K (xi + t) H ltac:(lra)) as V.
  pose proof PI_gt3 as P. pose proof pi_hi as P2. set (pdf := as_pdf quad xi 14 (- 1) (/ 650)) in *. set (F := 43 / Z).
  assert (iZ : 0 < / Z) by (apply Rinv_0_lt_compat, Z0). assert (iZ2 : / 7 <= / Z) by (apply Rinv_le_contravar; lra). assert (F0 : 0 < F) by (unfold F, Rdiv; lra).
  assert (Hn : forall i, (i < Z.to_nat 2048)%nat -> pdf (pymod (xi + env_node i) (2 * PI)) <= F).
  { intros i Hi. rewrite Ep. destruct (pymod_cong (xi + env_node i) (2 * PI)) as [w Ew]. set (nd := pymod (xi + env_node i) (2 * PI)) in *.
    replace (as_kernel 14 (- 1) (/ 650) (nd - xi)) with (as_kernel 14 (- 1) (/ 650) (env_node i)).
    - pose proof (thin_node i Hi). unfold F, Rdiv. nra.
    - replace (env_node i) with (nd - xi + 2 * PI * IZR w) by lra. apply as_kernel_turns. }
  pose proof ftiny_pos as T0. assert (TF : ftiny <= F). { apply Rle_trans with (1 := ftiny_small). apply Rle_trans with (/ 6); [apply Rinv_le_contravar; lra|]. unfold F, Rdiv. lra. }
  assert (Up : m <= ln F + 1 + ln (2 * PI)).
  { apply Rle_trans with (1 := E3). apply ratio_le; [exact H|lra|]. intros i Hi. fold pdf. pose proof (i0_pos iv (1 / 2) H) as I1. rewrite ln_mult by lra. pose proof (ln_i0_half iv H) as Lh. pose proof (COS_bound (env_node i)).
    assert (ln (Rmax (pdf (pymod (xi + env_node i) (2 * PI))) ftiny) <= ln F).
    { apply ln_le; [pose proof (Rmax_r (pdf (pymod (xi + env_node i) (2 * PI))) ftiny); lra|]. apply Rmax_lub; [apply Hn, Hi|exact TF]. }
    lra. }
  assert (Ex : exp (m + ln (1 + 2 / 100)) <= 853 / Z).
  { apply Rle_trans with (exp (ln F + 1 + ln (2 * PI) + ln (1 + 2 / 100))); [apply expm_le; lra|]. rewrite !exp_plus, !exp_ln by lra. pose proof exp_le_3 as E0. pose proof (exp_pos 1).
    assert (B : exp 1 * (2 * PI) <= 3 * (2 * (81 / 25))) by (apply Rmult_le_compat; lra). unfold F, Rdiv. replace (43 * / Z * exp 1 * (2 * PI) * (1 + 2 * / 100)) with (43 * (1 + 2 * / 100) * (exp 1 * (2 * PI)) * / Z) by ring. apply Rmult_le_compat_r; lra. }
  assert (BM : M <= 853 / Z) by (rewrite E4; apply Rmax_lub; [exact Ex|unfold Rdiv; lra]). assert (M0 : 0 < M) by (rewrite E4; pose proof (Rmax_r (exp (m + ln (1 + 2 / 100))) (101 / 100)); lra).
  assert (M * von_pdf iv xi K (xi + t) <= 853 / Z * (175 / 2)) by (apply Rle_trans with (M * (175 / 2)); [apply Rmult_le_compat_l; lra|apply Rmult_le_compat_r; lra]).
  unfold Rdiv in *. nra.
Qed.
