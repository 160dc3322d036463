(** katojones: density and trigonometric moments. *)
From Verif Require Import Prelude EmModel NpModel NpProofs CircleSpec IntSpec IntProofs DistModel DistSpec DistProofs
  Dist2Proofs Dist4Proofs Dist7Proofs KjModel.

Definition kjD (rho t : R) : R := 1 + rho ^ 2 - 2 * rho * cos t.
Definition kj0 (gamma rho lam t : R) : R :=
  1 / (2 * PI) + gamma / PI * ((cos lam * (cos t - rho) - sin lam * sin t) / kjD rho t).
Definition kjU (c : kj) (x : R) : R :=
  (1 + 2 * kj_gamma c * (cos (x - kj_mu c) - kj_rho c * cos (kj_lam c)) /
   kjD (kj_rho c) (x - kj_mu c - kj_lam c)) / (2 * PI).

Lemma cont_ext f g x : (forall y, f y = g y) -> continuity_pt f x -> continuity_pt g x.
Proof.
  intros H C eps He. destruct (C eps He) as (d & Hd & D). exists d. split; [exact Hd|].
  intros y Hy. rewrite <- !H. apply D. exact Hy.
Qed.
Lemma kjD_lower rho t : 0 <= rho < 1 -> (1 - rho) ^ 2 <= kjD rho t.
Proof. intros H. unfold kjD. pose proof (COS_bound t). nra. Qed.
Lemma kjD_pos rho t : 0 <= rho < 1 -> 0 < kjD rho t.
Proof. intros H. pose proof (kjD_lower rho t H). assert (0 < (1 - rho) ^ 2) by (apply pow_lt; lra). lra. Qed.

Lemma kjU_0 c x : kjU c x = kj0 (kj_gamma c) (kj_rho c) (kj_lam c) (x - kj_mu c - kj_lam c) \/ ~ (0 <= kj_rho c < 1).
Proof.
  destruct (Rle_dec 0 (kj_rho c)); [|right; lra]. destruct (Rlt_dec (kj_rho c) 1); [|right; lra]. left.
  unfold kjU, kj0. set (t := x - kj_mu c - kj_lam c).
  replace (x - kj_mu c) with (t + kj_lam c) by (unfold t; ring). rewrite cos_plus.
  pose proof (kjD_pos (kj_rho c) t ltac:(lra)). pose proof PI_RGT_0. field. lra.
Qed.
Lemma kjU_kj0 c x : 0 <= kj_rho c < 1 ->
  kjU c x = kj0 (kj_gamma c) (kj_rho c) (kj_lam c) (x - kj_mu c - kj_lam c).
Proof. intros H. destruct (kjU_0 c x); [assumption|contradiction]. Qed.

Lemma kj0_wc gamma rho lam t : 0 <= rho < 1 ->
  kj0 gamma rho lam t = 1 / (2 * PI)
    + 2 * gamma / (1 - rho ^ 2) * ((cos lam * (cos t - rho) - sin lam * sin t) * wc_pdf 0 rho t).
Proof.
  intros H. unfold kj0, wc_pdf. replace (t - 0) with t by ring. pose proof (kjD_pos rho t H) as Hd. unfold kjD in *.
  pose proof PI_RGT_0. assert (0 < 1 - rho ^ 2) by nra. field. repeat split; try lra.
Qed.

Lemma kj0_per gamma rho lam x : kj0 gamma rho lam (x + 2 * PI) = kj0 gamma rho lam x.
Proof.
  unfold kj0, kjD. replace (x + 2 * PI) with (x + 2 * PI * IZR 1) by ring.
  rewrite cos_turns, sin_turns. reflexivity.
Qed.
Lemma kj0_cont gamma rho lam x : 0 <= rho < 1 -> continuity_pt (kj0 gamma rho lam) x.
Proof.
  intros H.
  apply cont_ext with (f := fun t => 1 / (2 * PI)
    + 2 * gamma / (1 - rho ^ 2) * ((cos lam * (cos t - rho) - sin lam * sin t) * wc_pdf 0 rho t));
    [intros t; symmetry; apply kj0_wc; exact H|].
  apply cont_plus; [apply cont_const|]. apply cont_mult; [apply cont_const|].
  apply cont_mult; [|apply wc_pdf_cont; exact H].
  eapply dlim_cont. apply dlim_minus; apply dlim_scal; [apply dlim_minus; [apply (dlim_cos (fun y => y)); apply dlim_id|apply dlim_const]|].
  apply (dlim_sin (fun y => y)); apply dlim_id.
Qed.

Lemma kj0_total gamma rho lam : 0 <= rho < 1 -> integral (kj0 gamma rho lam) 0 (2 * PI) 1.
Proof.
  intros H. pose proof PI_RGT_0 as Hp. assert (H02 : 0 <= 2 * PI) by lra. assert (0 < 1 - rho ^ 2) by nra.
  destruct (wcm_n rho 0 H) as [C0 _]. destruct (wcm_n rho 1 H) as [C1 S1].
  pose proof (integral_lin _ _ _ _ (- rho) _ _ C1 C0) as I1.
  pose proof (integral_scal _ _ _ (cos lam) _ H02 I1) as I2.
  pose proof (integral_lin _ _ _ _ (- sin lam) _ _ I2 S1) as I3.
  pose proof (integral_lin _ _ _ _ (2 * gamma / (1 - rho ^ 2)) _ _ (integral_const 0 (2 * PI) (1 / (2 * PI))) I3) as I4.
  eapply integral_val; [|eapply integral_ext; [lra| |exact I4]].
  - simpl. field. lra.
  - intros x _. cbv beta. rewrite kj0_wc by exact H. simpl INR. rewrite Rmult_0_l, cos_0, Rmult_1_l. ring.
Qed.

Lemma kj0_moment gamma rho lam m : 0 <= rho < 1 ->
  integral (fun t => cos (INR (S m) * t) * kj0 gamma rho lam t) 0 (2 * PI) (gamma * rho ^ m * cos lam) /\
  integral (fun t => sin (INR (S m) * t) * kj0 gamma rho lam t) 0 (2 * PI) (- (gamma * rho ^ m * sin lam)).
Proof.
  intros H. pose proof PI_RGT_0 as Hp. assert (H02 : 0 <= 2 * PI) by lra. assert (0 < 1 - rho ^ 2) by nra.
  destruct (wcm_n rho m H) as [C0 S0]. destruct (wcm_n rho (S m) H) as [C1 S1]. destruct (wcm_n rho (S (S m)) H) as [C2 S2].
  assert (Hc : forall t, cos (INR (S m) * t) * cos t = / 2 * (cos (INR (S (S m)) * t) + cos (INR m * t))).
  { intros t. rewrite !S_INR. replace ((INR m + 1 + 1) * t) with ((INR m + 1) * t + t) by ring.
    replace (INR m * t) with ((INR m + 1) * t - t) by ring. rewrite cos_plus, cos_minus. field. }
  assert (Hs : forall t, cos (INR (S m) * t) * sin t = / 2 * (sin (INR (S (S m)) * t) - sin (INR m * t))).
  { intros t. rewrite !S_INR. replace ((INR m + 1 + 1) * t) with ((INR m + 1) * t + t) by ring.
    replace (INR m * t) with ((INR m + 1) * t - t) by ring. rewrite sin_plus, sin_minus. field. }
  assert (Hsc : forall t, sin (INR (S m) * t) * cos t = / 2 * (sin (INR (S (S m)) * t) + sin (INR m * t))).
  { intros t. rewrite !S_INR. replace ((INR m + 1 + 1) * t) with ((INR m + 1) * t + t) by ring.
    replace (INR m * t) with ((INR m + 1) * t - t) by ring. rewrite sin_plus, sin_minus. field. }
  assert (Hss : forall t, sin (INR (S m) * t) * sin t = / 2 * (cos (INR m * t) - cos (INR (S (S m)) * t))).
  { intros t. rewrite !S_INR. replace ((INR m + 1 + 1) * t) with ((INR m + 1) * t + t) by ring.
    replace (INR m * t) with ((INR m + 1) * t - t) by ring. rewrite cos_plus, cos_minus. field. }
  split.
  - pose proof (integral_lin _ _ _ _ (- rho * cos lam) _ _
       (integral_scal _ _ _ (/ 2 * cos lam) _ H02 (integral_plus _ _ _ _ _ _ H02 C2 C0)) C1) as I1.
    pose proof (integral_lin _ _ _ _ (- (/ 2 * sin lam)) _ _ I1 (integral_lin _ _ _ _ (-1) _ _ S2 S0)) as I2.
    pose proof (integral_lin _ _ _ _ (2 * gamma / (1 - rho ^ 2)) _ _
       (integral_scal _ _ _ (1 / (2 * PI)) _ H02 (int_cos_n (S m) ltac:(lia))) I2) as I3.
    eapply integral_val; [|eapply integral_ext; [lra| |exact I3]].
    + simpl pow. field. lra.
    + intros x _. cbv beta. rewrite kj0_wc by exact H.
      replace (cos (INR (S m) * x) * (1 / (2 * PI) + 2 * gamma / (1 - rho ^ 2) *
        ((cos lam * (cos x - rho) - sin lam * sin x) * wc_pdf 0 rho x)))
      with (1 / (2 * PI) * cos (INR (S m) * x) + 2 * gamma / (1 - rho ^ 2) *
        ((cos lam * (cos (INR (S m) * x) * cos x - rho * cos (INR (S m) * x)) - sin lam * (cos (INR (S m) * x) * sin x)) * wc_pdf 0 rho x)) by ring.
      rewrite Hc, Hs. ring.
  - pose proof (integral_lin _ _ _ _ (- rho * cos lam) _ _
       (integral_scal _ _ _ (/ 2 * cos lam) _ H02 (integral_plus _ _ _ _ _ _ H02 S2 S0)) S1) as I1.
    pose proof (integral_lin _ _ _ _ (- (/ 2 * sin lam)) _ _ I1 (integral_lin _ _ _ _ (-1) _ _ C0 C2)) as I2.
    pose proof (integral_lin _ _ _ _ (2 * gamma / (1 - rho ^ 2)) _ _
       (integral_scal _ _ _ (1 / (2 * PI)) _ H02 (int_sin_n (S m))) I2) as I3.
    eapply integral_val; [|eapply integral_ext; [lra| |exact I3]].
    + simpl pow. field. lra.
    + intros x _. cbv beta. rewrite kj0_wc by exact H.
      replace (sin (INR (S m) * x) * (1 / (2 * PI) + 2 * gamma / (1 - rho ^ 2) *
        ((cos lam * (cos x - rho) - sin lam * sin x) * wc_pdf 0 rho x)))
      with (1 / (2 * PI) * sin (INR (S m) * x) + 2 * gamma / (1 - rho ^ 2) *
        ((cos lam * (sin (INR (S m) * x) * cos x - rho * sin (INR (S m) * x)) - sin lam * (sin (INR (S m) * x) * sin x)) * wc_pdf 0 rho x)) by ring.
      rewrite Hsc, Hss. ring.
Qed.

(** Shift by lam, then by mu. *)
Lemma kjU_cont c x : 0 <= kj_rho c < 1 -> continuity_pt (kjU c) x.
Proof.
  intros H. apply cont_ext with (f := fun x => kj0 (kj_gamma c) (kj_rho c) (kj_lam c) (x - (kj_mu c + kj_lam c))).
  - intros y. rewrite kjU_kj0 by exact H. f_equal. ring.
  - apply (continuity_shift (kj0 (kj_gamma c) (kj_rho c) (kj_lam c))). apply kj0_cont. exact H.
Qed.
Lemma kjU_total c : 0 <= kj_rho c < 1 -> 0 <= kj_mu c <= 2 * PI -> 0 <= kj_lam c <= 2 * PI ->
  integral (kjU c) 0 (2 * PI) 1.
Proof.
  intros H Hm Hl. pose proof PI_RGT_0.
  pose proof (kj0_total (kj_gamma c) (kj_rho c) (kj_lam c) H) as I.
  pose proof (integral_shift _ (kj_lam c) _ Hl (fun x => kj0_cont _ _ _ x H) (fun x => kj0_per _ _ _ x) I) as I1.
  assert (Hc1 : forall x, continuity_pt (fun x => kj0 (kj_gamma c) (kj_rho c) (kj_lam c) (x - kj_lam c)) x)
    by (intros x; apply (continuity_shift (kj0 (kj_gamma c) (kj_rho c) (kj_lam c))); apply kj0_cont; exact H).
  assert (Hp1 : forall x, kj0 (kj_gamma c) (kj_rho c) (kj_lam c) (x + 2 * PI - kj_lam c) = kj0 (kj_gamma c) (kj_rho c) (kj_lam c) (x - kj_lam c))
    by (intros x; replace (x + 2 * PI - kj_lam c) with (x - kj_lam c + 2 * PI) by ring; apply kj0_per).
  pose proof (integral_shift _ (kj_mu c) _ Hm Hc1 Hp1 I1) as I2.
  eapply integral_ext; [lra| |exact I2]. intros x _. cbv beta. symmetry. apply kjU_kj0. exact H.
Qed.
Lemma kjU_moment c m : 0 <= kj_rho c < 1 -> 0 <= kj_mu c <= 2 * PI -> 0 <= kj_lam c <= 2 * PI ->
  let a := INR (S m) * kj_mu c + INR m * kj_lam c in
  integral (fun t => cos (INR (S m) * t) * kjU c t) 0 (2 * PI) (kj_gamma c * kj_rho c ^ m * cos a) /\
  integral (fun t => sin (INR (S m) * t) * kjU c t) 0 (2 * PI) (kj_gamma c * kj_rho c ^ m * sin a).
Proof.
  intros H Hm Hl a.
  destruct (kj0_moment (kj_gamma c) (kj_rho c) (kj_lam c) m H) as [Ic Is].
  set (f0 := kj0 (kj_gamma c) (kj_rho c) (kj_lam c)) in *.
  assert (Hc1 : forall x, continuity_pt (fun x => f0 (x - kj_lam c)) x)
    by (intros x; apply (continuity_shift f0); apply kj0_cont; exact H).
  assert (Hp1 : forall x, f0 (x + 2 * PI - kj_lam c) = f0 (x - kj_lam c))
    by (intros x; replace (x + 2 * PI - kj_lam c) with (x - kj_lam c + 2 * PI) by ring; apply kj0_per).
  destruct (moment_shift f0 (fun x => f0 (x - kj_lam c)) (kj_lam c) (S m) _ _ Hl
     (fun x => kj0_cont _ _ _ x H) (fun x => kj0_per _ _ _ x) (fun x _ => eq_refl) Ic Is) as [Jc Js].
  destruct (moment_shift _ (kjU c) (kj_mu c) (S m) _ _ Hm Hc1 Hp1 (fun x _ => kjU_kj0 c x H) Jc Js) as [Kc Ks].
  assert (Ha : a = INR (S m) * kj_mu c + (INR (S m) * kj_lam c - kj_lam c)) by (unfold a; rewrite (S_INR m); ring).
  clearbody a.
  split; eapply integral_val; [|exact Kc| |exact Ks]; subst a; rewrite ?cos_plus, ?sin_plus, cos_minus, sin_minus; ring.
Qed.

(** ** Non-negativity *)
Lemma kjU_num c x : 0 <= kj_rho c < 1 ->
  let t := x - kj_mu c - kj_lam c in
  2 * PI * kjD (kj_rho c) t * kjU c x =
  1 + kj_constraint (kj_gamma c) (kj_rho c) (kj_lam c) - kj_gamma c ^ 2
  - 2 * ((kj_rho c - kj_gamma c * cos (kj_lam c)) * cos t + kj_gamma c * sin (kj_lam c) * sin t).
Proof.
  intros H t. rewrite kjU_kj0 by exact H. fold t. unfold kj0, kj_constraint.
  pose proof (kjD_pos (kj_rho c) t H). pose proof PI_RGT_0.
  replace (2 * PI * kjD (kj_rho c) t * (1 / (2 * PI) + kj_gamma c / PI * ((cos (kj_lam c) * (cos t - kj_rho c) - sin (kj_lam c) * sin t) / kjD (kj_rho c) t)))
    with (kjD (kj_rho c) t + 2 * kj_gamma c * (cos (kj_lam c) * (cos t - kj_rho c) - sin (kj_lam c) * sin t)) by (field; lra).
  unfold kjD. pose proof (sin2_cos2 (kj_lam c)) as E. unfold Rsqr in E.
  replace ((kj_rho c * sin (kj_lam c)) ^ 2) with (kj_rho c ^ 2 * (1 - cos (kj_lam c) * cos (kj_lam c))) by (rewrite <- E; ring).
  ring.
Qed.
Lemma kj_cs_bound a b t : a * cos t + b * sin t <= sqrt (a ^ 2 + b ^ 2).
Proof.
  pose proof (sin2_cos2 t) as E. unfold Rsqr in E.
  apply Rle_trans with (Rabs (a * cos t + b * sin t)); [apply Rle_abs|].
  rewrite <- sqrt_Rsqr_abs. apply sqrt_le_1_alt. unfold Rsqr.
  assert (0 <= (a * sin t - b * cos t) ^ 2) by apply pow2_ge_0.
  replace (a ^ 2 + b ^ 2) with ((a ^ 2 + b ^ 2) * (sin t * sin t + cos t * cos t)) by (rewrite E; ring). nra.
Qed.
Lemma kj_norm gamma rho lam : (rho - gamma * cos lam) ^ 2 + (gamma * sin lam) ^ 2 = kj_constraint gamma rho lam.
Proof.
  unfold kj_constraint. pose proof (sin2_cos2 lam) as E. unfold Rsqr in E.
  replace ((rho * sin lam) ^ 2) with (rho ^ 2 * (1 - cos lam * cos lam)) by (rewrite <- E; ring).
  replace ((gamma * sin lam) ^ 2) with (gamma ^ 2 * (1 - cos lam * cos lam)) by (rewrite <- E; ring). ring.
Qed.
Lemma kj_v_nonneg gamma rho lam : 0 <= kj_constraint gamma rho lam.
Proof. unfold kj_constraint. pose proof (pow2_ge_0 (rho * cos lam - gamma)). pose proof (pow2_ge_0 (rho * sin lam)). lra. Qed.
Lemma kj_m_bound gamma rho lam : 0 <= gamma -> 0 <= rho -> sqrt (kj_constraint gamma rho lam) <= gamma + rho.
Proof.
  intros Hg Hr. rewrite <- (sqrt_pow2 (gamma + rho)) by lra. apply sqrt_le_1_alt.
  unfold kj_constraint. pose proof (sin2_cos2 lam) as E. unfold Rsqr in E. pose proof (COS_bound lam).
  replace ((rho * sin lam) ^ 2) with (rho ^ 2 * (1 - cos lam * cos lam)) by (rewrite <- E; ring).
  assert (0 <= gamma * rho * (1 + cos lam)) by (apply Rmult_le_pos; [apply Rmult_le_pos|]; lra). nra.
Qed.
(** The density before clipping is non-negative everywhere exactly under the constraint. *)
Lemma kjU_nonneg c : 0 <= kj_rho c < 1 -> 0 <= kj_gamma c < 1 ->
  kj_constraint (kj_gamma c) (kj_rho c) (kj_lam c) <= (1 - kj_gamma c) ^ 2 -> forall x, 0 <= kjU c x.
Proof.
  intros H Hg Hv x. set (t := x - kj_mu c - kj_lam c).
  pose proof (kjU_num c x H) as E. cbv zeta in E. fold t in E.
  pose proof (kj_cs_bound (kj_rho c - kj_gamma c * cos (kj_lam c)) (kj_gamma c * sin (kj_lam c)) t) as B.
  rewrite kj_norm in B. set (v := kj_constraint (kj_gamma c) (kj_rho c) (kj_lam c)) in *.
  assert (Hm : sqrt v <= 1 - kj_gamma c).
  { rewrite <- (sqrt_pow2 (1 - kj_gamma c)) by lra. apply sqrt_le_1_alt. exact Hv. }
  pose proof (sqrt_pos v). assert (Hvv : v = sqrt v * sqrt v) by (symmetry; apply sqrt_sqrt; apply kj_v_nonneg).
  assert (0 <= (1 - sqrt v) ^ 2 - kj_gamma c ^ 2).
  { replace ((1 - sqrt v) ^ 2 - kj_gamma c ^ 2) with ((1 - sqrt v - kj_gamma c) * (1 - sqrt v + kj_gamma c)) by ring.
    apply Rmult_le_pos; lra. }
  assert (Hn : 0 <= 2 * PI * kjD (kj_rho c) t * kjU c x).
  { rewrite E. nra. }
  pose proof (kjD_pos (kj_rho c) t H). pose proof PI_RGT_0.
  assert (Hq : 0 < 2 * PI * kjD (kj_rho c) t) by (apply Rmult_lt_0_compat; lra).
  destruct (Rle_dec 0 (kjU c x)); [assumption|]. nra.
Qed.
Lemma kjU_negative c : 0 <= kj_rho c < 1 -> 0 < kj_gamma c < 1 ->
  (1 - kj_gamma c) ^ 2 < kj_constraint (kj_gamma c) (kj_rho c) (kj_lam c) -> exists x, kjU c x < 0.
Proof.
  intros H Hg Hv.
  set (a := kj_rho c - kj_gamma c * cos (kj_lam c)). set (b := kj_gamma c * sin (kj_lam c)).
  set (v := kj_constraint (kj_gamma c) (kj_rho c) (kj_lam c)) in *.
  assert (Hab : a ^ 2 + b ^ 2 = v) by apply kj_norm.
  assert (Hm1 : 1 - kj_gamma c < sqrt v).
  { rewrite <- (sqrt_pow2 (1 - kj_gamma c)) by lra. apply sqrt_lt_1_alt. split; [apply pow2_ge_0|exact Hv]. }
  pose proof (kj_m_bound (kj_gamma c) (kj_rho c) (kj_lam c) ltac:(lra) ltac:(lra)) as Hm2. fold v in Hm2.
  assert (Hvv : sqrt v * sqrt v = v) by (apply sqrt_sqrt; apply kj_v_nonneg).
  assert (Hne : a <> 0 \/ b <> 0).
  { destruct (Req_dec a 0); [|left; assumption]. right. intros Hb. assert (v = 0) by (rewrite <- Hab; nra).
    pose proof (pow2_ge_0 (1 - kj_gamma c)). lra. }
  destruct (arctan2_polar b a Hne) as [Ea Eb].
  replace (a * a + b * b) with v in Ea, Eb by (rewrite <- Hab; ring).
  set (t := arctan2 b a) in *.
  exists (t + kj_mu c + kj_lam c).
  pose proof (kjU_num c (t + kj_mu c + kj_lam c) H) as E. cbv zeta in E.
  replace (t + kj_mu c + kj_lam c - kj_mu c - kj_lam c) with t in E by ring. fold a b v in E.
  assert (Ecs : a * cos t + b * sin t = sqrt v).
  { pose proof (sin2_cos2 t) as E2. unfold Rsqr in E2. rewrite Ea, Eb at 1.
    replace (sqrt v * cos t * cos t + sqrt v * sin t * sin t) with (sqrt v * (sin t * sin t + cos t * cos t)) by ring.
    rewrite E2. ring. }
  rewrite Ecs in E.
  pose proof (kjD_pos (kj_rho c) t H). pose proof PI_RGT_0.
  assert (Hq : 0 < 2 * PI * kjD (kj_rho c) t) by (apply Rmult_lt_0_compat; lra).
  assert (Hneg : (1 - sqrt v - kj_gamma c) * (1 - sqrt v + kj_gamma c) < 0) by nra.
  destruct (Rlt_dec (kjU c (t + kj_mu c + kj_lam c)) 0); [assumption|exfalso]. nra.
Qed.
