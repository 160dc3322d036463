(** wrapstable: the moments of the stable law, the jump at alpha = 1, negative values. *)
From Verif Require Import Prelude NpModel NpProofs UtilsModel UtilsProofs DescModel DescProofs CircleSpec IntSpec IntProofs DistModel DistSpec DistProofs Dist2Proofs Dist4Proofs Dist5Proofs
  Dist6Proofs Dist7Proofs Dist8Proofs KjProofs Kj2Proofs Kj6Proofs Kj7Proofs Von6Proofs WnModel WnProofs GaussProofs WsModel WsSpec WsProofs.

(** ** Moments *)
Lemma INR_ws_max : INR ws_max = 20000.
Proof. unfold ws_max. rewrite INR_IZR_INZ, Z2Nat.id by lia. reflexivity. Qed.
Lemma ln_pow10 (n : nat) : ln (10 ^ n) = INR n * ln 10.
Proof. apply ln_pow. lra. Qed.
Lemma exp_12ln10 : exp (- (12 * ln 10)) = / 10 ^ 12.
Proof. rewrite exp_Ropp. f_equal. rewrite <- (exp_ln (10 ^ 12)) by (apply pow_lt; lra). f_equal. rewrite ln_pow10. simpl. ring. Qed.
Lemma ws_reach a g : 12 * ln 10 <= Rpower (g * 20000) a -> ws_rho a g ws_max <= / 10 ^ 12.
Proof. intros H. unfold ws_rho. rewrite INR_ws_max, <- exp_12ln10. apply expm_le. lra. Qed.
Lemma ws_mu_phase d a b g n : / 10 ^ 10 < Rabs (a - 1) \/ b = 0 -> ws_mu d a b g n = stable_phase d a b g (INR n).
Proof.
  intros H. unfold ws_mu, stable_phase, ws_atol. destruct (Rleb_spec (Rabs (a - 1)) (/ 10 ^ 10)) as [L|L].
  - destruct H as [H| ->]; [lra|]. destruct (Reqb a 1); ring.
  - destruct (Reqb_spec a 1) as [->|N].
    + exfalso. apply L. replace (1 - 1) with 0 by ring. rewrite Rabs_R0. left. apply Rinv_0_lt_compat, pow_lt. lra.
    + replace (PI * a / 2) with (1 / 2 * PI * a) by field. reflexivity.
Qed.
Lemma ws_moments_law d a b g f : ws_ok d a b g = true -> / 10 ^ 10 < Rabs (a - 1) \/ b = 0 ->
  (forall x, public_pdf (ws_ok d a b g) (ws_pdf d a b g) x = Fin (f x)) ->
  integral f 0 (2 * PI) 1 /\
  forall n, (1 <= n)%nat -> exists A B, trig_moment_of f (Z.of_nat n) A B /\
    let A' := stable_modulus a g (INR n) * cos (stable_phase d a b g (INR n)) in
    let B' := stable_modulus a g (INR n) * sin (stable_phase d a b g (INR n)) in
    (n = 1%nat -> A = A' /\ B = B') /\
    (12 * ln 10 <= Rpower (g * 20000) a -> Rabs (A - A') <= / 10 ^ 12 /\ Rabs (B - B') <= / 10 ^ 12).
Proof.
  intros Hok Hb E. split; [exact (ws_pub_total d a b g f Hok E)|]. intros n Hn.
  pose proof (ws_moment_exact d a b g f n Hn Hok E) as M. cbv zeta in M. eexists. eexists. split; [exact M|]. cbv zeta. clear M.
  destruct (ws_ok_spec _ _ _ _ Hok) as (Hd & Ha & Hbb & Hg). destruct (ws_order_spec a g ltac:(lra) Hg) as [O1 O2].
  rewrite (ws_mu_phase d a b g n Hb). change (stable_modulus a g (INR n)) with (ws_rho a g n). set (ph := stable_phase d a b g (INR n)).
  assert (T : 0 < / 10 ^ 12) by (apply Rinv_0_lt_compat, pow_lt; lra). split.
  - intros ->. rewrite (proj2 (Nat.leb_le 1 _)) by lia. split; reflexivity.
  - intros H. apply ws_reach in H. specialize (O2 H). destruct (Nat.leb_spec n (ws_order a g)) as [L|L].
    + rewrite !Rminus_diag_eq by reflexivity. rewrite Rabs_R0. lra.
    + assert (Q : ws_rho a g n <= / 10 ^ 12). { pose proof (ws_rho_anti a g (ws_order a g) n ltac:(lra) Hg ltac:(lia)). lra. }
      pose proof (ws_rho_pos a g n). pose proof (COS_bound ph) as [C1 C2]. pose proof (SIN_bound ph) as [S1 S2].
      split; apply Rabs_le; split; nra.
Qed.

(** ** The jump at alpha = 1 *)
Lemma sin_half x : 0 <= x <= 1 -> x / 2 <= sin x.
Proof.
  intros Hx. pose proof PI_gt3 as P3.
  pose proof (mono_of_dlim (fun x => sin x - x / 2) (fun x => cos x - 1 / 2) 0 1) as M. cbv beta in M.
  assert (K : sin 0 - 0 / 2 <= sin x - x / 2).
  { apply M; try lra.
    - intros y _. eapply dlim_eq; [|apply dlim_minus; [apply dlim_sin, dlim_id|apply dlim_divc, dlim_id]]. cbv beta. field.
    - intros y Hy. assert (cos (PI / 3) <= cos y) by (apply cos_decr_1; lra). rewrite cos_PI3 in H. lra. }
  rewrite sin_0 in K. lra.
Qed.
Lemma tan_shift h : 0 < h < PI / 2 -> tan (PI / 2 + h) = - (cos h / sin h).
Proof.
  intros H. pose proof PI_RGT_0. unfold tan. assert (sin h > 0) by (apply sin_gt_0; lra). rewrite sin_plus, cos_plus, sin_PI2, cos_PI2. field. lra.
Qed.
Lemma exp1_hi t : 0 <= t <= 1 -> exp t <= 1 + 3 * t.
Proof.
  intros Ht. destruct (Rle_lt_or_eq_dec 0 t (proj1 Ht)) as [L| <-]; [|rewrite exp_0; lra].
  destruct (MVT_cor2 exp exp 0 t L) as (c & E & Hc); [intros; apply derivable_pt_lim_exp|]. rewrite exp_0 in E.
  assert (exp c <= 3). { apply Rle_trans with (exp 1); [apply expm_le; lra|apply exp_le_3]. } nra.
Qed.
Lemma exp1_hi2 t : 0 <= t <= / 10 -> exp t <= 1 + 13 / 10 * t.
Proof.
  intros Ht. destruct (Rle_lt_or_eq_dec 0 t (proj1 Ht)) as [L| <-]; [|rewrite exp_0; lra].
  destruct (MVT_cor2 exp exp 0 t L) as (c & E & Hc); [intros; apply derivable_pt_lim_exp|]. rewrite exp_0 in E.
  assert (exp c <= 13 / 10). { pose proof (exp1_hi c ltac:(lra)). lra. } nra.
Qed.
Lemma ln2_range : / 2 <= ln 2 <= 1.
Proof.
  split.
  - rewrite <- (ln_exp (/ 2)). apply Rnot_lt_le. intros L. apply ln_lt_inv in L; [|lra|apply exp_pos].
    assert (exp (/ 2) * exp (/ 2) = exp 1) as E by (rewrite <- exp_plus; f_equal; field). pose proof exp_le_3. nra.
  - rewrite <- (ln_exp 1). apply Rnot_lt_le. intros L. apply ln_lt_inv in L; [|apply exp_pos|lra]. pose proof (exp_ge1 1). lra.
Qed.
(** The phase just above alpha = 1. *)
Lemma ws_mu_above eta : / 10 ^ 10 < eta <= / 10 -> - PI < ws_mu 0 (1 + eta) (1 / 2) 2 1 < 0.
Proof.
  intros [H1 H2]. pose proof PI_gt3 as P3. pose proof PI_4 as P4. assert (T : 0 < / 10 ^ 10) by (apply Rinv_0_lt_compat, pow_lt; lra).
  unfold ws_mu, ws_atol. rewrite (proj2 (Rleb_false _ _)).
  2:{ replace (1 + eta - 1) with eta by ring. rewrite Rabs_pos_eq; lra. }
  change (INR 1) with 1. rewrite !Rmult_1_r, Rplus_0_l. replace (1 / 2 * PI * (1 + eta)) with (PI / 2 + PI * eta / 2) by field.
  set (h := PI * eta / 2). assert (Hh : 0 < h <= 1 / 4) by (unfold h; nra). rewrite tan_shift by lra.
  rewrite Rpower_plus, Rpower_1 by lra. unfold Rpower. set (t := eta * ln 2). pose proof ln2_range as L2.
  assert (Ht : 0 < t <= eta) by (unfold t; nra). pose proof (exp1_hi2 t ltac:(lra)) as E1. pose proof (exp_ge1 t) as E2.
  pose proof (sin_half h ltac:(lra)) as S1. pose proof (COS_bound h) as [_ C1]. assert (C0 : 0 < cos h) by (apply cos_gt_0; lra).
  assert (S0 : 0 < sin h) by lra.
  assert (Q0 : 0 < cos h / sin h) by (apply Rdiv_lt_0_compat; lra).
  assert (Q1 : cos h / sin h <= 4 / (PI * eta)).
  { replace (4 / (PI * eta)) with (1 / (h / 2)) by (unfold h; field; lra). unfold Rdiv. apply Rmult_le_compat; try lra.
    - left. apply Rinv_0_lt_compat. exact S0.
    - apply Rinv_le_contravar; lra. }
  assert (Q2 : 4 / (PI * eta) * (13 / 10 * eta) < PI).
  { replace (4 / (PI * eta) * (13 / 10 * eta)) with (52 / 10 / PI) by (field; lra).
    apply (Rmult_lt_reg_r PI); [lra|]. replace (52 / 10 / PI * PI) with (52 / 10) by (field; lra). nra. }
  set (q := cos h / sin h) in *. set (w := 4 / (PI * eta)) in *.
  assert (Q3 : 1 / 2 * (2 * exp t - 2) <= 13 / 10 * eta) by lra. assert (Q4 : 0 < 1 / 2 * (2 * exp t - 2)) by lra.
  replace (1 / 2 * - q * (2 * exp t - 2)) with (- (q * (1 / 2 * (2 * exp t - 2)))) by ring. set (z := 1 / 2 * (2 * exp t - 2)) in *.
  assert (0 < q * z) by (apply Rmult_lt_0_compat; lra).
  assert (q * z <= w * (13 / 10 * eta)) by (apply Rmult_le_compat; lra). lra.
Qed.
Lemma ws_mu_one : 1 / 4 <= ws_mu 0 1 (1 / 2) 2 1 <= 1.
Proof.
  pose proof PI_gt3 as P3. pose proof PI_4 as P4. pose proof ln2_range as L2. unfold ws_mu, ws_atol. rewrite (proj2 (Rleb_true _ _)).
  2:{ replace (1 - 1) with 0 by ring. rewrite Rabs_R0. left. apply Rinv_0_lt_compat, pow_lt. lra. }
  change (INR 1) with 1. replace (0 * 1 + 2 / PI * (1 / 2) * 2 * 1 * ln (2 * 1)) with (2 / PI * ln 2) by (replace (2 * 1) with 2 by ring; field; lra).
  assert (1 / 2 <= 2 / PI <= 2 / 3).
  { split; [apply (Rmult_le_reg_r PI); [lra|]; replace (2 / PI * PI) with 2 by (field; lra); lra|].
    apply (Rmult_le_reg_r PI); [lra|]; replace (2 / PI * PI) with 2 by (field; lra); lra. }
  nra.
Qed.
(** Parameters 2e-10 apart whose first sine moments differ by more than 1/80. *)
Lemma ws_jump f1 f2 : let a2 := 1 + 2 / 10 ^ 10 in
  (forall x, public_pdf (ws_ok 0 1 (1 / 2) 2) (ws_pdf 0 1 (1 / 2) 2) x = Fin (f1 x)) ->
  (forall x, public_pdf (ws_ok 0 a2 (1 / 2) 2) (ws_pdf 0 a2 (1 / 2) 2) x = Fin (f2 x)) ->
  exists A1 B1 A2 B2, trig_moment_of f1 1 A1 B1 /\ trig_moment_of f2 1 A2 B2 /\ B2 < 0 /\ / 80 < B1.
Proof.
  intros a2 E1 E2. pose proof PI_gt3 as P3.
  assert (T : 0 < / 10 ^ 10 <= / 100) by lra.
  assert (Ha : a2 = 1 + 2 * / 10 ^ 10) by (unfold a2; lra).
  assert (O1 : ws_ok 0 1 (1 / 2) 2 = true) by (apply ws_ok_intro; lra).
  assert (O2 : ws_ok 0 a2 (1 / 2) 2 = true) by (apply ws_ok_intro; lra).
  pose proof (ws_moment_exact _ _ _ _ _ 1 ltac:(lia) O1 E1) as M1. pose proof (ws_moment_exact _ _ _ _ _ 1 ltac:(lia) O2 E2) as M2. cbv zeta in M1, M2.
  pose proof (proj1 (ws_order_spec 1 2 ltac:(lra) ltac:(lra))) as Q1. pose proof (proj1 (ws_order_spec a2 2 ltac:(lra) ltac:(lra))) as Q2.
  rewrite (proj2 (Nat.leb_le 1 _)) in M1 by lia. rewrite (proj2 (Nat.leb_le 1 _)) in M2 by lia.
  do 4 eexists. split; [exact M1|]. split; [exact M2|]. clear M1 M2. split.
  - pose proof (ws_mu_above (2 * / 10 ^ 10) ltac:(lra)) as K. rewrite <- Ha in K. pose proof (ws_rho_pos a2 2 1) as R0.
    assert (S : sin (ws_mu 0 a2 (1 / 2) 2 1) < 0) by (apply sin_lt_0_var; lra). nra.
  - pose proof ws_mu_one as K. pose proof (sin_half (ws_mu 0 1 (1 / 2) 2 1) ltac:(lra)) as S.
    assert (R0 : / 9 <= ws_rho 1 2 1).
    { unfold ws_rho. change (INR 1) with 1. rewrite Rmult_1_r, Rpower_1 by lra. rewrite exp_Ropp. apply Rinv_le_contravar; [apply exp_pos|].
      replace 2 with (1 + 1) at 1 by ring. rewrite exp_plus. pose proof exp_le_3 as E3. pose proof (exp_pos 1) as E0. nra. }
    assert (1 / 8 <= sin (ws_mu 0 1 (1 / 2) 2 1)) by lra. nra.
Qed.
Lemma dlim_quot f l : derivable_pt_lim f 0 l -> limit1_in (fun h => (f h - f 0) / h) (fun h => h <> 0) l 0.
Proof.
  intros D e He. destruct (D e He) as (d & Hd). exists d. split; [apply cond_pos|]. intros x [N Hx]. simpl in *. unfold R_dist in *.
  specialize (Hd x N). rewrite Rplus_0_l in Hd. apply Hd. replace x with (x - 0) by ring. exact Hx.
Qed.
(** The phase of the stable law itself is continuous at alpha = 1. *)
Lemma stable_phase_cont d b g t e : 0 < g -> 0 < t -> 0 < e -> exists r, 0 < r /\
  forall a, Rabs (a - 1) < r -> Rabs (stable_phase d a b g t - stable_phase d 1 b g t) < e.
Proof.
  intros Hg Ht He. pose proof PI_gt3 as P3.
  assert (Hu : 0 < g * t) by (apply Rmult_lt_0_compat; lra).
  assert (D1 : derivable_pt_lim (fun x => sin (PI / 2 * x)) 0 (PI / 2)).
  { eapply dlim_eq; [|apply (dlim_sin (fun x => PI / 2 * x)), dlim_mulc]. cbv beta. rewrite Rmult_0_r, cos_0. ring. }
  assert (D2 : derivable_pt_lim (fun x => g * t * exp (ln (g * t) * x)) 0 (g * t * ln (g * t))).
  { eapply dlim_eq; [|apply dlim_scal, (dlim_exp (fun x => ln (g * t) * x)), dlim_mulc]. cbv beta. rewrite Rmult_0_r, exp_0. ring. }
  assert (L3 : limit1_in (fun h => cos (PI / 2 * h)) (fun h => h <> 0) 1 0).
  { assert (C : continuity_pt (fun h => cos (PI / 2 * h)) 0) by apply cos_n_cont. intros e0 He0. destruct (C e0 He0) as (al & A0 & A1). exists al. split; [exact A0|].
    intros x [N Hx]. specialize (A1 x). cbv beta in A1. rewrite Rmult_0_r, cos_0 in A1. apply A1. split; [split; [exact I|congruence]|exact Hx]. }
  apply dlim_quot in D1. apply dlim_quot in D2. cbv beta in D1, D2. 
  pose proof (limit_mul _ _ _ _ _ _ (limit_mul _ _ _ _ _ _ L3 D2) (limit_inv _ _ _ _ D1 ltac:(lra))) as LL.
  pose proof (limit_mul _ _ _ _ _ _ (limit_free (fun _ => b) (fun h => h <> 0) 0 0) LL) as LQ. destruct (LQ e He) as (al & A0 & A1). clear D1 D2 L3 LL LQ.
  exists (Rmin al 1). split; [apply Rmin_glb_lt; lra|]. intros a Hal. pose proof (Rmin_l al 1) as M1. pose proof (Rmin_r al 1) as M2.
  destruct (Req_dec a 1) as [->|N]; [rewrite Rminus_diag_eq, Rabs_R0 by reflexivity; exact He|].
  assert (Hh : a - 1 <> 0) by lra.
  specialize (A1 (a - 1)). cbv beta in A1. unfold dist, R_met, R_dist in A1. simpl in A1. unfold R_dist in A1.
  unfold stable_phase. rewrite (proj2 (Reqb_true 1 1) eq_refl), (proj2 (Reqb_false a 1) N).
  set (h := a - 1) in *. assert (Ea : a = 1 + h) by (unfold h; ring).
  assert (Sn : sin (PI / 2 * h) <> 0).
  { apply Rabs_def2 in Hal. destruct (Rlt_le_dec 0 h) as [B|B].
    - pose proof (sin_gt_0 (PI / 2 * h) ltac:(nra) ltac:(nra)). lra.
    - pose proof (sin_lt_0_var (PI / 2 * h) ltac:(nra) ltac:(nra)). lra. }
  rewrite Ea at 1 2. rewrite Rpower_plus, Rpower_1 by exact Hu. unfold Rpower. rewrite (Rmult_comm h (ln (g * t))).
  replace (tan (PI * (1 + h) / 2)) with (- (cos (PI / 2 * h) / sin (PI / 2 * h))).
  2:{ replace (PI * (1 + h) / 2) with (PI / 2 + PI / 2 * h) by field. unfold tan. rewrite sin_plus, cos_plus, sin_PI2, cos_PI2. field.
      lra. }
  rewrite <- Rabs_Ropp. refine (Rle_lt_trans _ _ _ (Req_le _ _ _) (A1 (conj Hh _))).
  - f_equal. rewrite !Rmult_0_r, sin_0, exp_0. field. repeat split; lra.
  - replace (h - 0) with h by ring. lra.
Qed.
