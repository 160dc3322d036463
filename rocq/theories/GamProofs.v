(** The gamma function from its characterisation, and the integral of a power of 1 + cos. *)
From Verif Require Import Prelude NpModel NpProofs IntSpec IntProofs DistModel DistProofs Dist4Proofs Dist7Proofs KjProofs Kj2Proofs JpProofs GaussProofs CwModel CwSpec.

Lemma gam_bounds1 g m y : is_gamma g -> 0 < m -> 0 <= y <= 1 ->
  ln (g (m + 1)) + y * ln m <= ln (g (m + 1 + y)) <= ln (g (m + 1)) + y * ln (m + 1).
Proof.
  intros (_ & Hr & Hc) Hm Hy. destruct (Hr m Hm) as [P0 E0]. destruct (Hr (m + 1) ltac:(lra)) as [P1 E1].
  assert (L0 : ln (g (m + 1)) = ln m + ln (g m)) by (rewrite E0; apply ln_mult; assumption).
  assert (L1 : ln (g (m + 1 + 1)) = ln (m + 1) + ln (g (m + 1))) by (rewrite E1; apply ln_mult; lra). split.
  - set (t := y / (1 + y)). assert (T : 0 <= t <= 1).
    { unfold t. split; [apply Rmult_le_pos; [lra|apply Rlt_le, Rinv_0_lt_compat; lra]|]. apply Rmult_le_reg_r with (1 + y); [lra|]. unfold Rdiv. rewrite Rmult_assoc, Rinv_l by lra. lra. }
    pose proof (Hc m (m + 1 + y) t Hm ltac:(lra) T) as C. replace (t * m + (1 - t) * (m + 1 + y)) with (m + 1) in C by (unfold t; field; lra).
    assert (Et : t * (1 + y) = y) by (unfold t; field; lra).
    assert (C2 : (1 + y) * ln (g (m + 1)) <= (1 + y) * (t * ln (g m) + (1 - t) * ln (g (m + 1 + y)))) by (apply Rmult_le_compat_l; lra).
    replace ((1 + y) * (t * ln (g m) + (1 - t) * ln (g (m + 1 + y)))) with (t * (1 + y) * ln (g m) + ((1 + y) - t * (1 + y)) * ln (g (m + 1 + y))) in C2 by ring. rewrite Et in C2. nra.
  - pose proof (Hc (m + 1 + 1) (m + 1) y ltac:(lra) ltac:(lra) Hy) as C. replace (y * (m + 1 + 1) + (1 - y) * (m + 1)) with (m + 1 + y) in C by ring. nra.
Qed.
Lemma ln_mono a b : 0 < a -> a <= b -> ln a <= ln b.
Proof. intros H [L|<-]; [left; apply ln_increasing; assumption|lra]. Qed.
Lemma gam_bounds g m y : is_gamma g -> 1 <= m -> 0 <= y <= 2 ->
  ln (g (m + 1)) + y * ln m <= ln (g (m + 1 + y)) <= ln (g (m + 1)) + y * ln (m + 2).
Proof.
  intros H Hm Hy. pose proof (ln_mono m (m + 1) ltac:(lra) ltac:(lra)). pose proof (ln_mono (m + 1) (m + 2) ltac:(lra) ltac:(lra)). pose proof (ln_mono 1 m ltac:(lra) Hm) as L1. rewrite ln_1 in L1.
  destruct (Rle_lt_dec y 1) as [L|L].
  - pose proof (gam_bounds1 g m y H ltac:(lra) ltac:(lra)). nra.
  - pose proof (gam_bounds1 g (m + 1) (y - 1) H ltac:(lra) ltac:(lra)) as B. replace (m + 1 + 1 + (y - 1)) with (m + 1 + y) in B by ring. replace (m + 1 + 1) with (m + 2) in B by ring.
    destruct H as (_ & Hr & _). destruct (Hr (m + 1) ltac:(lra)) as [P1 E1]. assert (E : ln (g (m + 2)) = ln (m + 1) + ln (g (m + 1))) by (replace (m + 2) with (m + 1 + 1) by ring; rewrite E1; apply ln_mult; lra).
    nra.
Qed.

(** ** Powers of 1 + cos *)
Lemma npow_pos x y : 0 < x -> npow x y = Rpower x y.
Proof. intros H. unfold npow. rewrite (proj2 (Rltb_true _ _) H). reflexivity. Qed.
Lemma npow_0 x y : x <= 0 -> npow x y = 0.
Proof. intros H. unfold npow. rewrite (proj2 (Rltb_false _ _) H). reflexivity. Qed.
Lemma npow_nonneg x y : 0 <= npow x y.
Proof. unfold npow. destruct (Rltb 0 x); [unfold Rpower; apply Rlt_le, exp_pos|lra]. Qed.
Lemma npow_small s e : 0 < s -> 0 < e -> exists d, 0 < d /\ forall x, x < d -> npow x s < e.
Proof.
  intros Hs He. exists (Rpower e (1 / s)). split; [apply exp_pos|]. intros x Hx. destruct (Rlt_dec 0 x) as [L|L]; [|rewrite npow_0 by lra; exact He].
  rewrite npow_pos by exact L. replace e with (Rpower (Rpower e (1 / s)) s) by (rewrite Rpower_mult; replace (1 / s * s) with 1 by (field; lra); apply Rpower_1, He).
  unfold Rpower at 1 2. apply exp_increasing. apply Rmult_lt_compat_l; [exact Hs|]. apply ln_increasing; assumption.
Qed.
Lemma npow_cont s f x : 0 < s -> continuity_pt f x -> 0 <= f x -> continuity_pt (fun t => npow (f t) s) x.
Proof.
  intros Hs Hf [P|Z].
  - assert (C : continuity_pt (fun t => Rpower (f t) s) x).
    { unfold Rpower. apply (cont_comp exp (fun t => s * ln (f t))); [|apply exp_cont]. apply cont_mult; [apply cont_const|]. apply (cont_comp ln f); [exact Hf|apply ln_cont, P]. }
    intros e He. destruct (C e He) as (d1 & D1 & H1). destruct (Hf (f x) P) as (d2 & D2 & H2). exists (Rmin d1 d2). split; [apply Rmin_pos; assumption|].
    intros y [Dy Ry]. simpl in *. unfold R_dist in *. rewrite (npow_pos (f x)) by exact P.
    assert (Q : 0 < f y). { assert (A : Rabs (f y - f x) < f x) by (apply H2; split; [exact Dy|apply Rlt_le_trans with (1 := Ry), Rmin_r]). apply Rabs_def2 in A. lra. }
    rewrite npow_pos by exact Q. apply H1. split; [exact Dy|apply Rlt_le_trans with (1 := Ry), Rmin_l].
  - intros e He. destruct (npow_small s e Hs He) as (d & D & H). destruct (Hf d D) as (d2 & D2 & H2). exists d2. split; [exact D2|]. intros y Hy. simpl in *. unfold R_dist in *.
    rewrite (npow_0 (f x)) by lra. rewrite Rminus_0_r, Rabs_pos_eq by apply npow_nonneg. apply H. pose proof (H2 y Hy) as A. apply Rabs_def2 in A. lra.
Qed.
Definition kc (s u : R) : R := npow (1 + cos u) s.
Lemma kc_cont s u : 0 < s -> continuity_pt (kc s) u.
Proof. intros H. unfold kc. apply (npow_cont s (fun t => 1 + cos t)); [exact H|apply cont_plus; [apply cont_const|apply cos_cont]|pose proof (COS_bound u); lra]. Qed.
Lemma kc_S s u : kc (s + 1) u = (1 + cos u) * kc s u.
Proof.
  unfold kc. destruct (Rlt_dec 0 (1 + cos u)) as [L|L].
  - rewrite !npow_pos by exact L. rewrite Rpower_plus, Rpower_1 by exact L. ring.
  - rewrite !npow_0 by lra. ring.
Qed.
Lemma kc_d s u : 0 < s -> derivable_pt_lim (fun t => sin t * kc s t) u ((1 + s) * kc (s + 1) u - (1 + 2 * s) * kc s u).
Proof.
  intros Hs. pose proof (COS_bound u) as C. destruct (Rlt_dec 0 (1 + cos u)) as [L|L].
  - pose proof (cont_plus (fun _ => 1) cos u (cont_const 1 u) (cos_cont u)) as Cc. destruct (Cc _ L) as (d & D & Hd).
    assert (Q : forall y, u - d < y < u + d -> 0 < 1 + cos y).
    { intros y Hy. destruct (Req_dec y u) as [->|N]; [exact L|]. simpl in Hd. unfold R_dist, D_x, no_cond in Hd. assert (A : Rabs (1 + cos y - (1 + cos u)) < 1 + cos u) by (apply Hd; repeat split; [intros E; apply N; symmetry; exact E|apply Rabs_def1; lra]). apply Rabs_def2 in A. lra. }
    apply (dlim_ext_loc (fun t => sin t * exp (s * ln (1 + cos t))) _ u _ (u - d) (u + d)); [lra| |].
    + intros y Hy. unfold kc. rewrite npow_pos by (apply Q, Hy). reflexivity.
    + eapply dlim_eq; [|apply (dlim_mult sin (fun t => exp (s * ln (1 + cos t)))); [apply derivable_pt_lim_sin|apply (dlim_exp (fun t => s * ln (1 + cos t))); apply dlim_scal; apply (dlim_ln (fun t => 1 + cos t)); [exact L|apply (dlim_plus (fun _ => 1) cos); [apply dlim_const|apply derivable_pt_lim_cos]]]].
      cbv beta. rewrite kc_S. unfold kc. rewrite npow_pos by exact L. unfold Rpower. pose proof (sin2_cos2 u) as T. unfold Rsqr in T.
      replace (sin u * (exp (s * ln (1 + cos u)) * (s * (/ (1 + cos u) * (0 + - sin u))))) with (- (sin u * sin u) * / (1 + cos u) * s * exp (s * ln (1 + cos u))) by ring.
      replace (- (sin u * sin u)) with (- ((1 - cos u) * (1 + cos u))) by lra. replace (- ((1 - cos u) * (1 + cos u)) * / (1 + cos u)) with (- (1 - cos u)) by (field; lra). ring.
  - assert (E0 : cos u = - 1) by lra. assert (S0 : sin u = 0). { pose proof (sin2_cos2 u) as T. unfold Rsqr in T. rewrite E0 in T. nra. }
    assert (K0 : kc s u = 0) by (unfold kc; apply npow_0; lra). rewrite kc_S, K0, !Rmult_0_r, Rminus_0_r.
    intros e He. destruct (kc_cont s u Hs e He) as (d & D & Hd). exists (mkposreal d D). intros h Hh Bh. simpl in Bh, Hd. unfold R_dist, D_x, no_cond in Hd.
    rewrite K0, Rmult_0_r. rewrite !Rminus_0_r. unfold Rdiv. rewrite Rabs_mult, Rabs_inv, Rabs_mult.
    assert (Sh : Rabs (sin (u + h)) <= Rabs h).
    { rewrite sin_plus, S0, E0. replace (0 * cos h + - 1 * sin h) with (- sin h) by ring. rewrite Rabs_Ropp. assert (X : forall y, 0 < y -> Rabs (sin y) <= y).
      { intros y Hy. apply Rabs_le. destruct (Rle_lt_dec y 1) as [Ly|Ly]; [|pose proof (SIN_bound y); lra]. pose proof (sin_lt_x y Hy). pose proof PI_gt3. pose proof (sin_ge_0 y ltac:(lra) ltac:(lra)). lra. }
      destruct (Rlt_dec 0 h) as [Ph|Ph]; [rewrite (Rabs_pos_eq h) by lra; apply X, Ph|]. rewrite (Rabs_left h) by lra. rewrite <- (Ropp_involutive h) at 1. rewrite sin_neg, Rabs_Ropp. apply X. lra. }
    pose proof (Rabs_pos_lt h Hh) as Ph. assert (N : Rabs (kc s (u + h)) < e).
    { assert (A : Rabs (kc s (u + h) - kc s u) < e) by (apply Hd; repeat split; [lra|replace (u + h - u) with h by ring; exact Bh]). rewrite K0, Rminus_0_r in A. exact A. }
    pose proof (Rabs_pos (kc s (u + h))). pose proof (Rabs_pos (sin (u + h))). apply Rle_lt_trans with (Rabs h * Rabs (kc s (u + h)) * / Rabs h).
    + apply Rmult_le_compat_r; [apply Rlt_le, Rinv_0_lt_compat, Ph|]. apply Rmult_le_compat_r; assumption.
    + replace (Rabs h * Rabs (kc s (u + h)) * / Rabs h) with (Rabs (kc s (u + h))) by (field; lra). exact N.
Qed.
Lemma kc_turns s u (z : Z) : kc s (u + 2 * PI * IZR z) = kc s u.
Proof. unfold kc. rewrite NpProofs.cos_turns. reflexivity. Qed.
Lemma kc_rec s v w : 0 < s -> integral (kc s) 0 (2 * PI) v -> integral (kc (s + 1)) 0 (2 * PI) w -> (1 + s) * w = (1 + 2 * s) * v.
Proof.
  intros Hs I1 I2. pose proof PI_RGT_0 as P.
  assert (A : integral (fun u => (1 + s) * kc (s + 1) u - (1 + 2 * s) * kc s u) 0 (2 * PI) (sin (2 * PI) * kc s (2 * PI) - sin 0 * kc s 0)).
  { apply (ftc _ (fun t => sin t * kc s t)); [lra| |intros x _; apply kc_d, Hs]. intros x _. apply (cont_ext (fun u => (1 + s) * kc (s + 1) u + - (1 + 2 * s) * kc s u)); [intros; ring|].
    apply cont_plus; apply cont_mult; try apply cont_const; apply kc_cont; lra. }
  assert (B : integral (fun u => (1 + s) * kc (s + 1) u - (1 + 2 * s) * kc s u) 0 (2 * PI) ((1 + s) * w + - (1 + 2 * s) * v)).
  { apply (integral_ext (fun u => (1 + s) * kc (s + 1) u + - (1 + 2 * s) * kc s u)); [lra|intros; ring|]. apply integral_plus; [lra| |]; apply integral_scal; try lra; assumption. }
  pose proof (integral_unique _ _ _ _ _ A B) as E. rewrite sin_0, sin_2PI in E. lra.
Qed.
