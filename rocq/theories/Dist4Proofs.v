(** Proofs about wrapcauchy. *)
From Verif Require Import Prelude NpModel NpProofs CircleSpec IntSpec IntProofs DistModel DistSpec DistProofs Dist2Proofs.

Lemma PI_gt3 : 3 < PI.
Proof. pose proof PI2_3_2. unfold PI2 in *. lra. Qed.

(** A smooth antiderivative of the density centred at 0. *)
Definition wcF (rho t : R) : R := t / (2 * PI) + atan (rho * sin t / (1 - rho * cos t)) / PI.

Lemma wc_c_pos rho t : 0 <= rho < 1 -> 0 < 1 - rho * cos t.
Proof. intros H. pose proof (COS_bound t). nra. Qed.
Lemma wc_D_pos rho t : 0 <= rho < 1 -> 0 < 1 + rho ^ 2 - 2 * rho * cos t.
Proof. intros H. pose proof (COS_bound t). nra. Qed.

Lemma dlim_affine_c c x : derivable_pt_lim (fun y => y - c) x 1.
Proof. replace 1 with (1 - 0) by ring. apply dlim_minus; [apply dlim_id|apply dlim_const]. Qed.

Lemma wcF_d rho t : 0 <= rho < 1 -> derivable_pt_lim (wcF rho) t (wc_pdf 0 rho t).
Proof.
  intros H. pose proof PI_pos as Hp. pose proof (wc_c_pos rho t H) as Hc. pose proof (wc_D_pos rho t H) as HD.
  unfold wcF, wc_pdf. rewrite Rminus_0_r.
  eapply dlim_eq; [|apply dlim_plus; [apply dlim_divc; apply dlim_id|apply dlim_divc; apply dlim_atan;
    apply dlim_div; [|apply dlim_scal; apply derivable_pt_lim_sin
      |apply dlim_minus; [apply dlim_const|apply dlim_scal; apply derivable_pt_lim_cos]]]].
  2:{ lra. }
  cbv beta.
  assert (T : sin t * sin t = 1 - cos t * cos t) by (pose proof (sin2_cos2 t); unfold Rsqr in *; lra).
  assert (E : 1 + (rho * sin t / (1 - rho * cos t)) ^ 2 = (1 + rho ^ 2 - 2 * rho * cos t) / (1 - rho * cos t) ^ 2).
  { replace ((rho * sin t / (1 - rho * cos t)) ^ 2) with (rho ^ 2 * (sin t * sin t) / (1 - rho * cos t) ^ 2) by (field; lra).
    rewrite T. field. lra. }
  rewrite E.
  replace (rho * cos t * (1 - rho * cos t) - rho * sin t * (0 - rho * - sin t))
    with (rho * cos t - rho ^ 2 * (cos t * cos t) - rho ^ 2 * (sin t * sin t)) by ring.
  rewrite T. field. repeat split; lra.
Qed.

Lemma wc_pdf_shift mu rho x : wc_pdf mu rho x = wc_pdf 0 rho (x - mu).
Proof. unfold wc_pdf. rewrite Rminus_0_r. reflexivity. Qed.

Lemma wcF_turn rho t : wcF rho (t + 2 * PI) = wcF rho t + 1.
Proof.
  pose proof PI_pos. unfold wcF.
  rewrite sin_plus, cos_plus, sin_2PI, cos_2PI.
  replace (sin t * 1 + cos t * 0) with (sin t) by ring.
  replace (cos t * 1 - sin t * 0) with (cos t) by ring. field. lra.
Qed.
Lemma wcF_turns rho t (k : Z) : wcF rho (t + 2 * PI * IZR k) = wcF rho t + IZR k.
Proof.
  pose proof PI_pos. unfold wcF. rewrite sin_turns, cos_turns. field. lra.
Qed.

Lemma wcF_mono rho a b : 0 <= rho < 1 -> a <= b -> wcF rho a <= wcF rho b.
Proof.
  intros H Hab. apply (mono_of_dlim (wcF rho) (wc_pdf 0 rho) a b); try lra.
  - intros. apply wcF_d. exact H.
  - intros x _. unfold wc_pdf. pose proof PI_pos. pose proof (wc_D_pos rho (x - 0) H).
    apply Rmult_le_pos; [nra|]. apply Rlt_le, Rinv_0_lt_compat. apply Rmult_lt_0_compat; lra.
Qed.

Lemma wc_pdf_lower mu rho x : 0 <= rho < 1 -> (1 - rho) / (8 * PI) <= wc_pdf mu rho x.
Proof.
  intros H. pose proof PI_pos as Hp. pose proof (wc_D_pos rho (x - mu) H) as HD.
  pose proof (COS_bound (x - mu)). unfold wc_pdf.
  assert (L : 1 + rho ^ 2 - 2 * rho * cos (x - mu) <= 4) by nra.
  apply Rle_trans with ((1 - rho ^ 2) / (2 * PI * 4)).
  - replace (2 * PI * 4) with (8 * PI) by ring. unfold Rdiv. apply Rmult_le_compat_r; [|nra].
    apply Rlt_le, Rinv_0_lt_compat. lra.
  - unfold Rdiv. apply Rmult_le_compat_l; [nra|]. apply Rinv_le_contravar.
    + apply Rmult_lt_0_compat; lra.
    + apply Rmult_le_compat_l; lra.
Qed.

Lemma wcF_strict rho a b : 0 <= rho < 1 -> a < b ->
  (1 - rho) / (8 * PI) * (b - a) <= wcF rho b - wcF rho a.
Proof.
  intros H Hab.
  set (m := (1 - rho) / (8 * PI)).
  assert (wcF rho a - m * a <= wcF rho b - m * b); [|lra].
  apply (mono_of_dlim (fun x => wcF rho x - m * x) (fun x => wc_pdf 0 rho x - m) a b); try lra.
  - intros x _. eapply dlim_eq; [|apply dlim_minus; [apply wcF_d; exact H|apply dlim_scal; apply dlim_id]]. ring.
  - intros x _. pose proof (wc_pdf_lower 0 rho x H). fold m in H0. lra.
Qed.

(** The function of the code is this antiderivative. *)
Lemma wc_H_F rho phi : 0 <= rho < 1 -> - PI <= phi < PI ->
  wc_H phi ((1 + rho) / (1 - rho)) = 1 / 2 + wcF rho phi.
Proof.
  intros H Hphi. pose proof PI_pos as Hp. pose proof (wc_c_pos rho phi H) as Hc.
  unfold wc_H, wcF.
  set (c := 1 - rho * cos phi) in *. set (s := rho * sin phi).
  set (b := atan (s / c)).
  assert (Hb : - PI / 2 < b < PI / 2) by (apply atan_bound).
  assert (E : arctan2 ((1 + rho) / (1 - rho) * sin (1 / 2 * phi)) (cos (1 / 2 * phi)) = phi / 2 + b).
  { set (m := sqrt (1 + (s / c) * (s / c))).
    assert (Hm : 0 < m) by (apply sqrt_lt_R0; pose proof (Rle_0_sqr (s / c)) as K; unfold Rsqr in K; lra).
    assert (Cb : cos b = / m) by (apply cos_atan_pos).
    assert (Sb : sin b = s / c / m) by (apply sin_atan_eq).
    assert (h : phi = 1 / 2 * phi + 1 / 2 * phi) by field.
    set (y := 1 / 2 * phi) in *.
    assert (T : sin y * sin y + cos y * cos y = 1) by (pose proof (sin2_cos2 y); unfold Rsqr in *; lra).
    assert (Cp : cos phi = cos y * cos y - sin y * sin y) by (rewrite h; apply cos_plus).
    assert (Sp : sin phi = 2 * (sin y * cos y)) by (rewrite h, sin_plus; ring).
    assert (Eu : same_dir (arctan2 ((1 + rho) / (1 - rho) * sin y) (cos y)) (phi / 2 + b)).
    2:{ destruct Eu as [k Hk]. pose proof (arctan2_range ((1 + rho) / (1 - rho) * sin y) (cos y)) as Ra.
        assert (L : -1 < IZR k) by (apply (Rmult_lt_reg_l (2 * PI)); lra).
        assert (U : IZR k < 1) by (apply (Rmult_lt_reg_l (2 * PI)); lra).
        apply lt_IZR in L. apply lt_IZR in U. assert (k = 0)%Z as K by lia. rewrite K in Hk. lra. }
    apply (arctan2_unique (m * c / (1 - rho))).
    - apply Rdiv_lt_0_compat; [|lra]. apply Rmult_lt_0_compat; lra.
    - replace (phi / 2 + b) with (y + b) by (unfold y; field).
      rewrite cos_plus, Cb, Sb.
      replace (m * c / (1 - rho) * (cos y * / m - sin y * (s / c / m)))
        with ((cos y * c - sin y * s) / (1 - rho)) by (field; repeat split; lra).
      unfold c, s. rewrite Cp, Sp.
      replace (cos y * (1 - rho * (cos y * cos y - sin y * sin y)) - sin y * (rho * (2 * (sin y * cos y))))
        with (cos y * (1 - rho * (sin y * sin y + cos y * cos y))) by ring.
      rewrite T. field. lra.
    - replace (phi / 2 + b) with (y + b) by (unfold y; field).
      rewrite sin_plus, Cb, Sb.
      replace (m * c / (1 - rho) * (sin y * / m + cos y * (s / c / m)))
        with ((sin y * c + cos y * s) / (1 - rho)) by (field; repeat split; lra).
      unfold c, s. rewrite Cp, Sp.
      replace (sin y * (1 - rho * (cos y * cos y - sin y * sin y)) + cos y * (rho * (2 * (sin y * cos y))))
        with (sin y * (1 + rho * (sin y * sin y + cos y * cos y))) by ring.
      rewrite T. field. lra. }
  rewrite E. field. lra.
Qed.

Lemma centre_spec t : - PI <= centre t < PI /\ exists k : Z, t = centre t + 2 * PI * IZR k.
Proof.
  pose proof PI2_pos as Hp. unfold centre. pose proof (pymod_range (t + PI) (2 * PI) Hp).
  split; [lra|]. destruct (pymod_cong (t + PI) (2 * PI)) as [k Hk]. exists k. lra.
Qed.

(** The distribution function measured from angle 0. *)
Definition wcI (mu rho x : R) : R := wcF rho (x - mu) - wcF rho (- mu).

Lemma wcI_0 mu rho : wcI mu rho 0 = 0.
Proof. unfold wcI. replace (0 - mu) with (- mu) by ring. ring. Qed.
Lemma wcI_2pi mu rho : wcI mu rho (2 * PI) = 1.
Proof. unfold wcI. replace (2 * PI - mu) with (- mu + 2 * PI) by ring. rewrite wcF_turn. ring. Qed.
Lemma wcI_d mu rho x : 0 <= rho < 1 -> derivable_pt_lim (wcI mu rho) x (wc_pdf mu rho x).
Proof.
  intros H. rewrite wc_pdf_shift. unfold wcI.
  eapply dlim_eq; [|apply dlim_minus; [apply (dlim_comp (wcF rho)); [apply dlim_affine_c|apply wcF_d; exact H]|apply dlim_const]].
  ring.
Qed.
Lemma wcI_strict mu rho a b : 0 <= rho < 1 -> a < b ->
  (1 - rho) / (8 * PI) * (b - a) <= wcI mu rho b - wcI mu rho a.
Proof.
  intros H Hab. pose proof (wcF_strict rho (a - mu) (b - mu) H ltac:(lra)) as K.
  replace (b - mu - (a - mu)) with (b - a) in K by ring. unfold wcI. lra.
Qed.
Lemma wc_m_pos rho : rho < 1 -> 0 < (1 - rho) / (8 * PI).
Proof. intros H. pose proof PI_pos. apply Rdiv_lt_0_compat; lra. Qed.
Lemma wcI_lt mu rho a b : 0 <= rho < 1 -> a < b -> wcI mu rho a < wcI mu rho b.
Proof.
  intros H Hab. pose proof (wcI_strict mu rho a b H Hab). pose proof (wc_m_pos rho (proj2 H)).
  assert (0 < (1 - rho) / (8 * PI) * (b - a)) by (apply Rmult_lt_0_compat; lra). lra.
Qed.
Lemma wcI_range mu rho x : 0 <= rho < 1 -> 0 <= x < 2 * PI -> 0 <= wcI mu rho x < 1.
Proof.
  intros H Hx. split.
  - destruct (Req_dec x 0) as [->|]; [rewrite wcI_0; lra|].
    pose proof (wcI_lt mu rho 0 x H ltac:(lra)). rewrite wcI_0 in *. lra.
  - pose proof (wcI_lt mu rho x (2 * PI) H ltac:(lra)). rewrite wcI_2pi in *. lra.
Qed.

Lemma wc_pdf_cont mu rho x : 0 <= rho < 1 -> continuity_pt (wc_pdf mu rho) x.
Proof.
  intros H. pose proof PI_pos. pose proof (wc_D_pos rho (x - mu) H). unfold wc_pdf.
  eapply dlim_cont. apply dlim_div; [|apply dlim_const|apply dlim_scal; apply dlim_minus; [apply dlim_const|
    apply dlim_scal; apply dlim_cos; apply dlim_affine_c]].
  apply Rgt_not_eq. apply Rmult_lt_0_compat; lra.
Qed.

Lemma wc_ok_spec mu rho : wc_ok mu rho = true -> 0 <= mu <= 2 * PI /\ 0 <= rho < 1.
Proof.
  intros H. unfold wc_ok in H. repeat (apply andb_prop in H; destruct H as [H ?]).
  repeat match goal with h : Rleb _ _ = true |- _ => apply Rleb_true in h
                       | h : Rltb _ _ = true |- _ => apply Rltb_true in h end. lra.
Qed.

(** The exact distribution function describes the density. *)
Lemma wc_describes mu rho : wc_ok mu rho = true ->
  describes (public_pdf (wc_ok mu rho) (wc_pdf mu rho)) (public_cdf (wc_ok mu rho) (wcI mu rho)).
Proof.
  intros Hok. rewrite Hok. apply wc_ok_spec in Hok. destruct Hok as [H1 H2].
  apply (describes_intro _ _ (wcI mu rho)).
  - intros. apply wc_pdf_cont. exact H2.
  - intros. apply wcI_d. exact H2.
  - apply wcI_0.
  - apply wcI_2pi.
  - reflexivity.
  - intros x _. pose proof (wc_pdf_lower mu rho x H2). pose proof (wc_m_pos rho (proj2 H2)). lra.
  - unfold wc_pdf. rewrite cos_2pi_minus. replace (0 - mu) with (- mu) by ring. rewrite cos_neg. reflexivity.
Qed.

Lemma close_2pi_spec x : x <= 2 * PI -> close_2pi x = true <-> 2 * PI - x <= / 100000000 + / 100000 * (2 * PI).
Proof.
  intros H. pose proof PI_pos. unfold close_2pi, isclose, isclose_tol. rewrite Rleb_true.
  rewrite (Rabs_left1 (x - 2 * PI)) by lra. rewrite (Rabs_pos_eq (2 * PI)) by lra. split; lra.
Qed.

(** Where the code's distribution function is exact. *)
Lemma wc_cdf_exact mu rho x : ftiny <= rho <= 1 - / 10 ^ 15 -> 0 <= x < 2 * PI ->
  close_2pi x = false -> / 10 ^ 12 < 1 - wcI mu rho x -> wc_cdf mu rho x = wcI mu rho x.
Proof.
  intros Hr Hx Hcl Ht. pose proof PI_pos as Hp.
  assert (F : 0 < ftiny) by (apply Rinv_0_lt_compat; apply pow_lt; lra).
  assert (F15 : 0 < / 10 ^ 15) by (apply Rinv_0_lt_compat; lra).
  assert (F12 : 0 < / 10 ^ 12) by (apply Rinv_0_lt_compat; lra).
  assert (H : 0 <= rho < 1) by lra.
  unfold wc_cdf. rewrite wrap_in by lra. rewrite Hcl.
  rewrite (clip_in rho) by exact Hr.
  destruct (centre_spec (x - mu)) as [R1 [k1 E1]]. destruct (centre_spec (- mu)) as [R0 [k0 E0]].
  rewrite !wc_H_F by assumption.
  pose proof (wcI_range mu rho x H Hx) as RI.
  assert (EI : wcI mu rho x = wcF rho (centre (x - mu)) - wcF rho (centre (- mu)) + IZR (k1 - k0)).
  { unfold wcI. rewrite E1 at 1. rewrite E0 at 1. rewrite !wcF_turns, minus_IZR. ring. }
  assert (K : (k1 - k0 = 0 \/ k1 - k0 = 1)%Z).
  { assert (X : 2 * PI * IZR (k1 - k0) = x - centre (x - mu) + centre (- mu)) by (rewrite minus_IZR; lra).
    assert (U : IZR (k1 - k0) < 2).
    { apply (Rmult_lt_reg_l (2 * PI)); lra. }
    assert (L : -1 < IZR (k1 - k0)).
    { apply (Rmult_lt_reg_l (2 * PI)); lra. }
    apply lt_IZR in U. apply lt_IZR in L. lia. }
  replace (1 / 2 + wcF rho (centre (x - mu)) - (1 / 2 + wcF rho (centre (- mu))))
    with (wcI mu rho x - IZR (k1 - k0)) by lra.
  destruct K as [K|K]; rewrite K.
  - replace (wcI mu rho x - 0) with (wcI mu rho x) by ring.
    destruct (Rltb_spec (wcI mu rho x) (- / 10 ^ 12)); [lra|].
    destruct (Rltb_spec 1 (wcI mu rho x)); [lra|]. apply clip_in. lra.
  - destruct (Rltb_spec (wcI mu rho x - 1) (- / 10 ^ 12)); [|lra].
    replace (wcI mu rho x - 1 + 1) with (wcI mu rho x) by ring.
    destruct (Rltb_spec 1 (wcI mu rho x)); [lra|]. apply clip_in. lra.
Qed.

(** Close to 2 pi the code returns 1. *)
Lemma wc_cdf_window mu rho x : 0 <= x < 2 * PI -> 2 * PI - x <= 6 / 100000 -> wc_cdf mu rho x = 1.
Proof.
  intros Hx H. unfold wc_cdf. rewrite wrap_in by lra.
  assert (C : close_2pi x = true).
  { apply close_2pi_spec; [lra|]. pose proof PI_pos. pose proof PI_gt3. lra. }
  rewrite C. reflexivity.
Qed.

Lemma wc_not_describes mu rho : wc_ok mu rho = true ->
  ~ describes (public_pdf (wc_ok mu rho) (wc_pdf mu rho)) (public_cdf (wc_ok mu rho) (wc_cdf mu rho)).
Proof.
  intros Hok (f & F & Ef & EF & _ & _ & _ & F1 & Fi & _).
  rewrite Hok in Ef, EF. apply wc_ok_spec in Hok. destruct Hok as [H1 H2].
  pose proof PI_pos as Hp. assert (PI1 : 1 < PI) by (pose proof PI2_1; lra).
  set (a := 2 * PI - 6 / 100000).
  assert (Ha : 0 < a < 2 * PI) by (unfold a; lra).
  destruct (Fi a (2 * PI) ltac:(lra) ltac:(lra) ltac:(lra)) as [_ I].
  assert (Fa : F a = 1).
  { specialize (EF a). rewrite public_cdf_fin in EF. injection EF as <-.
    unfold pub_F. rewrite wrap_in by lra. destruct (Rleb_spec (2 * PI) a); [reflexivity|].
    destruct (Rltb_spec 0 a); [|lra]. apply wc_cdf_window; [lra|]. unfold a. lra. }
  rewrite F1, Fa in I.
  pose proof (wc_m_pos rho (proj2 H2)) as Hm.
  pose proof (integral_const a (2 * PI) ((1 - rho) / (8 * PI))) as J.
  assert (L : (1 - rho) / (8 * PI) * (2 * PI - a) <= 1 - 1).
  { eapply integral_le; [|  |exact J|exact I]; [lra|].
    intros x Hx. specialize (Ef x). rewrite public_pdf_fin in Ef. injection Ef as <-.
    rewrite wrap_in by lra. apply wc_pdf_lower. exact H2. }
  assert (0 < (1 - rho) / (8 * PI) * (2 * PI - a)) by (apply Rmult_lt_0_compat; lra). lra.
Qed.

(** The distribution function falls back to 0 past the far side of a concentrated
    distribution. *)

Lemma wc_not_monotone : exists mu rho x1 x2 v1 v2,
  wc_ok mu rho = true /\ 0 <= x1 /\ x1 <= x2 /\ x2 <= 2 * PI /\
  public_cdf (wc_ok mu rho) (wc_cdf mu rho) x1 = Fin v1 /\
  public_cdf (wc_ok mu rho) (wc_cdf mu rho) x2 = Fin v2 /\
  1 / 2 <= v1 /\ v2 = 0.
Proof.
  pose proof PI_pos as Hp. pose proof PI_gt3 as P3.
  set (rho := 1 - / 10 ^ 12).
  assert (F12 : 0 < / 10 ^ 12 < 1 / 2).
  { split; [apply Rinv_0_lt_compat; lra|]. apply Rlt_le_trans with (/ 10); [apply Rinv_lt_contravar; lra|lra]. }
  assert (F15 : / 10 ^ 15 < / 10 ^ 12) by (apply Rinv_lt_contravar; lra).
  assert (F15' : 0 < / 10 ^ 15) by (apply Rinv_0_lt_compat; lra).
  assert (Ft : 0 < ftiny <= 1 / 2).
  { unfold ftiny. split; [apply Rinv_0_lt_compat; apply pow_lt; lra|].
    replace (1 / 2) with (/ 2 ^ 1) by (cbn; field). apply Rinv_le_contravar; [apply pow_lt; lra|].
    apply Rle_pow; [lra|lia]. }
  assert (Hr : 0 <= rho < 1) by (unfold rho; lra).
  assert (Hok : wc_ok (PI / 2) rho = true).
  { unfold wc_ok. repeat (apply andb_true_intro; split); try (apply Rleb_true); try (apply Rltb_true); lra. }
  assert (At : 0 <= PI / 4 - atan rho <= / 10 ^ 12).
  { rewrite <- atan_1. split.
    - assert (atan rho < atan 1) by (apply atan_increasing; lra). lra.
    - assert (K : rho - atan rho <= 1 - atan 1).
      { apply (mono_of_dlim (fun x => x - atan x) (fun x => 1 - / (1 + x ^ 2)) rho 1); try lra.
        - intros x _. apply dlim_minus; [apply dlim_id|]. apply derivable_pt_lim_atan.
        - intros x _. pose proof (pow2_ge_0 x). assert (/ (1 + x ^ 2) <= / 1) by (apply Rinv_le_contravar; lra).
          rewrite Rinv_1 in *. lra. }
      unfold rho in *. lra. }
  assert (C0 : centre (- (PI / 2)) = - (PI / 2)).
  { unfold centre. rewrite pymod_small; lra. }
  assert (C1 : centre (PI - PI / 2) = PI / 2).
  { unfold centre. rewrite pymod_small; lra. }
  assert (C2 : centre (3 * PI / 2 - PI / 2) = - PI).
  { unfold centre. replace (3 * PI / 2 - PI / 2 + PI) with (0 + 2 * PI * IZR 1) by field.
    rewrite pymod_add by lra. rewrite pymod_small; lra. }
  assert (W0 : wcF rho (- (PI / 2)) = - (1 / 4) - atan rho / PI).
  { unfold wcF. rewrite sin_neg, cos_neg, sin_PI2, cos_PI2.
    replace (rho * - (1) / (1 - rho * 0)) with (- rho) by field. rewrite atan_opp. field. lra. }
  assert (W1 : wcF rho (PI / 2) = 1 / 4 + atan rho / PI).
  { unfold wcF. rewrite sin_PI2, cos_PI2.
    replace (rho * 1 / (1 - rho * 0)) with rho by field. field. lra. }
  assert (W2 : wcF rho (- PI) = - (1 / 2)).
  { unfold wcF. rewrite sin_neg, sin_PI. replace (rho * - 0 / (1 - rho * cos (- PI))) with 0 by (unfold Rdiv; ring).
    rewrite atan_0. field. lra. }
  set (d := (PI / 4 - atan rho) / PI).
  assert (Hd : 0 <= d <= / 10 ^ 12).
  { unfold d. split.
    - apply Rmult_le_pos; [lra|apply Rlt_le, Rinv_0_lt_compat; lra].
    - apply (Rmult_le_reg_r PI); [lra|]. unfold Rdiv. rewrite Rmult_assoc, Rinv_l by lra. nra. }
  assert (Ea : atan rho / PI = 1 / 4 - d) by (unfold d; field; lra).
  rewrite Ea in W0, W1.
  exists (PI / 2), rho, PI, (3 * PI / 2), (1 - 2 * d), 0.
  split; [exact Hok|]. rewrite Hok. split; [lra|]. split; [lra|]. split; [lra|].
  rewrite !public_cdf_fin. unfold pub_F. rewrite !wrap_in by lra.
  destruct (Rleb_spec (2 * PI) PI); [lra|]. destruct (Rltb_spec 0 PI); [|lra].
  destruct (Rleb_spec (2 * PI) (3 * PI / 2)); [lra|]. destruct (Rltb_spec 0 (3 * PI / 2)); [|lra].
  assert (CL : forall x, x <= 3 * PI / 2 -> close_2pi x = false).
  { intros x Hx. destruct (close_2pi x) eqn:E; [|reflexivity]. apply close_2pi_spec in E; lra. }
  split; [|split; [|split; [lra|reflexivity]]].
  - f_equal. unfold wc_cdf. rewrite wrap_in by lra. rewrite CL by lra.
    rewrite (clip_in rho) by (unfold rho; lra). rewrite C0, C1. rewrite !wc_H_F by lra. rewrite W0, W1.
    replace (1 / 2 + (1 / 4 + (1 / 4 - d)) - (1 / 2 + (- (1 / 4) - (1 / 4 - d)))) with (1 - 2 * d) by field.
    destruct (Rltb_spec (1 - 2 * d) (- / 10 ^ 12)); [lra|]. destruct (Rltb_spec 1 (1 - 2 * d)); [lra|].
    apply clip_in. lra.
  - f_equal. unfold wc_cdf. rewrite wrap_in by lra. rewrite CL by lra.
    rewrite (clip_in rho) by (unfold rho; lra). rewrite C0, C2. rewrite !wc_H_F by lra. rewrite W0, W2.
    replace (1 / 2 + - (1 / 2) - (1 / 2 + (- (1 / 4) - (1 / 4 - d)))) with (- d) by field.
    destruct (Rltb_spec (- d) (- / 10 ^ 12)); [lra|]. destruct (Rltb_spec 1 (- d)); [lra|].
    unfold clip. rewrite Rmax_right by lra. apply Rmin_left. lra.
Qed.
