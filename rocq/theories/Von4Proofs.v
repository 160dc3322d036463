(** The von Mises density: moments, entropy, gradient and the location estimate. *)
From Verif Require Import Prelude NpModel NpProofs UtilsModel UtilsProofs DescModel DescProofs CircleSpec IntSpec IntProofs DistModel DistSpec DistProofs Dist2Proofs Dist4Proofs Dist5Proofs
  Dist6Proofs Dist7Proofs Dist8Proofs KjProofs Kj2Proofs Kj6Proofs Kj7Proofs VonModel VonSpec VonProofs Von2Proofs Von3Proofs.

Lemma von_ok_spec mu k : von_ok mu k = true -> 0 <= mu <= 2 * PI /\ 0 < k.
Proof. unfold von_ok. rewrite !andb_true_iff, !Rleb_true, Rltb_true. tauto. Qed.
Lemma von_pdf_cont iv mu k x : continuity_pt (von_pdf iv mu k) x.
Proof.
  apply (cont_ext (fun x => / (2 * PI * iv 0%nat k) * vE k (x - mu))); [intros; symmetry; apply von_pdf_shift|].
  apply cont_mult; [apply cont_const|]. apply continuity_shift. apply vE_cont.
Qed.
Lemma von_pdf_pos iv mu k x : is_iv iv -> 0 < von_pdf iv mu k x.
Proof.
  intros H. pose proof (i0_pos iv k H). pose proof PI_pos. unfold von_pdf. apply Rdiv_lt_0_compat; [apply exp_pos|nra].
Qed.
Lemma von_pdf_per iv mu k x : von_pdf iv mu k (x + 2 * PI) = von_pdf iv mu k x.
Proof. rewrite !von_pdf_shift. f_equal. replace (x + 2 * PI - mu) with (x - mu + 2 * PI) by ring. apply vE_per. Qed.
Lemma von_total iv mu k c : is_iv iv -> integral (von_pdf iv mu k) c (c + 2 * PI) 1.
Proof.
  intros H. pose proof PI_pos. pose proof (i0_pos iv k H).
  eapply integral_val; [|apply von_int; [exact H|lra|]].
  2:{ replace (c + 2 * PI - mu) with (c - mu + 2 * PI) by ring. apply int_turn; [apply vE_cont|apply vE_turns|apply i0_int; exact H]. }
  field. split; lra.
Qed.
Lemma von_density iv mu k : is_iv iv -> von_ok mu k = true -> pdf_is_density (public_pdf (von_ok mu k) (von_pdf iv mu k)).
Proof.
  intros H ->. apply density_intro.
  - intros; apply von_pdf_cont.
  - intros; left; apply von_pdf_pos; exact H.
  - replace (2 * PI) with (0 + 2 * PI) by ring. rewrite von_pdf_per. reflexivity.
  - replace (2 * PI) with (0 + 2 * PI) by ring. apply von_total. exact H.
Qed.
Lemma von_logpdf_ln iv mu k x : is_iv iv -> von_logpdf iv mu k x = ln (von_pdf iv mu k x).
Proof.
  intros H. pose proof (i0_pos iv k H). pose proof PI_pos. unfold von_logpdf, von_pdf, Rdiv.
  assert (0 < 2 * PI * iv 0%nat k) by nra. set (Z := 2 * PI * iv 0%nat k) in *.
  rewrite ln_mult; [|apply exp_pos|apply Rinv_0_lt_compat; assumption]. rewrite ln_Rinv by assumption. rewrite ln_exp. ring.
Qed.

(** ** Moments *)
Lemma odd_integral f v : (forall x, continuity_pt f x) -> (forall x, f (2 * PI - x) = - f x) -> integral f 0 (2 * PI) v -> v = 0.
Proof.
  intros C O Hv. pose proof PI_pos. destruct (primitive_exists f 0 (2 * PI)) as [Q HQ]; [lra|auto|].
  assert (I1 : integral f 0 (2 * PI) (Q (2 * PI) - Q 0)) by (apply ftc; [lra|auto|exact HQ]).
  assert (I2 : integral f 0 (2 * PI) (Q (2 * PI - 2 * PI) - Q (2 * PI - 0))).
  { apply (ftc f (fun t => Q (2 * PI - t))); [lra|auto|]. intros x Hx.
    eapply dlim_eq; [|apply (dlim_comp Q (fun t => 2 * PI - t)); [apply dlim_minus; [apply dlim_const|apply dlim_id]|apply HQ; lra]].
    rewrite O. ring. }
  pose proof (integral_unique _ _ _ _ _ Hv I1). pose proof (integral_unique _ _ _ _ _ Hv I2).
  replace (2 * PI - 2 * PI) with 0 in H1 by ring. replace (2 * PI - 0) with (2 * PI) in H1 by ring. lra.
Qed.
Lemma sin_refl (n : nat) x : sin (INR n * (2 * PI - x)) = - sin (INR n * x).
Proof.
  replace (INR n * (2 * PI - x)) with (INR n * (- x + 2 * PI)) by ring. rewrite sin_per.
  replace (INR n * - x) with (- (INR n * x)) by ring. apply sin_neg.
Qed.
Lemma von_moments iv mu k f (n : nat) : is_iv iv -> von_ok mu k = true ->
  (forall x, public_pdf (von_ok mu k) (von_pdf iv mu k) x = Fin (f x)) ->
  trig_moment_of f (Z.of_nat n) (iv n k / iv 0%nat k * cos (INR n * mu)) (iv n k / iv 0%nat k * sin (INR n * mu)).
Proof.
  intros H Hok E. rewrite Hok in E. apply von_ok_spec in Hok as [Hm Hk]. pose proof (pub_pdf_on _ _ E) as E'.
  pose proof PI_pos. pose proof (i0_pos iv k H) as I0. assert (L : 0 <= 2 * PI) by lra.
  assert (A : integral (fun t => cos (INR n * t) * von_pdf iv 0 k t) 0 (2 * PI) (iv n k / iv 0%nat k)).
  { eapply (integral_ext (fun t => / (2 * PI * iv 0%nat k) * (cos (INR n * t) * exp (k * cos t)))); [lra|intros t _; unfold von_pdf; rewrite Rminus_0_r; field; split; lra|].
    eapply integral_val; [|apply integral_scal; [lra|apply H]]. field. split; lra. }
  assert (B : integral (fun t => sin (INR n * t) * von_pdf iv 0 k t) 0 (2 * PI) 0).
  { assert (C : forall x, continuity_pt (fun t => sin (INR n * t) * von_pdf iv 0 k t) x) by (intros; apply cont_mult; [apply sin_n_cont|apply von_pdf_cont]).
    destruct (continuous_integral (fun t => sin (INR n * t) * von_pdf iv 0 k t) 0 (2 * PI)) as [v V]; [lra|auto|].
    eapply integral_val; [|exact V]. apply (odd_integral _ v C); [|exact V]. intros x. cbv beta. rewrite sin_refl.
    replace (von_pdf iv 0 k (2 * PI - x)) with (von_pdf iv 0 k x); [ring|].
    unfold von_pdf. rewrite !Rminus_0_r. replace (2 * PI - x) with (- x + 2 * PI * IZR 1) by ring. rewrite cos_turns, cos_neg. reflexivity. }
  destruct (moment_shift (von_pdf iv 0 k) f mu n (iv n k / iv 0%nat k) 0 Hm (von_pdf_cont iv 0 k) (von_pdf_per iv 0 k)) with (2 := A) (3 := B) as [K1 K2].
  - intros x Hx. rewrite E' by exact Hx. unfold von_pdf. rewrite Rminus_0_r. reflexivity.
  - unfold trig_moment_of. rewrite <- INR_IZR_INZ.
    split; [eapply integral_val; [|exact K1]|eapply integral_val; [|exact K2]]; ring.
Qed.
Lemma von_var_r iv k r : iv 1%nat k / iv 0%nat k = r -> von_var iv k = 1 - r /\ von_std iv k = sqrt (- 2 * ln r).
Proof. intros <-. split; reflexivity. Qed.

(** ** Entropy *)
Lemma von_entropy_offset iv mu k : is_iv iv -> von_ok mu k = true ->
  is_entropy (von_pdf iv mu k) (ln (2 * PI) - von_entropy iv k).
Proof.
  intros H Hok. apply von_ok_spec in Hok as [Hm Hk]. pose proof PI_pos. pose proof (i0_pos iv k H) as I0.
  set (f0 := fun t => - (von_pdf iv 0 k t * von_logpdf iv 0 k t)).
  assert (C : forall x, continuity_pt f0 x).
  { intros x. unfold f0. apply (cont_ext (fun t => -1 * (von_pdf iv 0 k t * von_logpdf iv 0 k t))); [intros; ring|].
    apply cont_mult; [apply cont_const|]. apply cont_mult; [apply von_pdf_cont|].
    unfold von_logpdf. apply (cont_ext (fun t => k * cos (t - 0) + - ln (2 * PI * iv 0%nat k))); [intros; ring|].
    apply cont_plus; [apply cont_mult; [apply cont_const|apply (continuity_shift cos 0); apply cos_cont]|apply cont_const]. }
  assert (P : forall x, f0 (x + 2 * PI) = f0 x).
  { intros x. unfold f0. rewrite von_pdf_per. unfold von_logpdf. replace (x + 2 * PI - 0) with (x - 0 + 2 * PI * IZR 1) by ring. rewrite cos_turns. reflexivity. }
  assert (I : integral f0 0 (2 * PI) (ln (2 * PI) - von_entropy iv k)).
  { set (Z := 2 * PI * iv 0%nat k). assert (0 < Z) by (unfold Z; nra).
    eapply (integral_ext (fun t => (ln Z / Z) * vE k t + (- k / Z) * (cos t * vE k t))); [lra|intros t _; unfold f0, von_logpdf, von_pdf; fold Z; rewrite Rminus_0_r; unfold vE; field; lra|].
    eapply integral_val; [|apply integral_lin; [apply integral_scal; [lra|apply i0_int; exact H]|apply i1_int; exact H]].
    unfold von_entropy, Z. rewrite ln_mult by lra. field. split; lra. }
  unfold is_entropy. apply (integral_ext (fun x => f0 (x - mu))); [lra| |apply integral_shift; assumption].
  intros x _. unfold f0. rewrite von_logpdf_ln by exact H. unfold von_pdf. rewrite Rminus_0_r. reflexivity.
Qed.
Lemma is_entropy_unique f a b : is_entropy f a -> is_entropy f b -> a = b.
Proof. apply integral_unique. Qed.
(** For a small concentration the returned number has the wrong sign and size. *)
Lemma von_entropy_wrong iv : is_iv iv -> forall mu k, von_ok mu k = true -> k <= 1 / 10 -> ~ is_entropy (von_pdf iv mu k) (von_entropy iv k).
Proof.
  intros H mu k Hok Hk E. pose proof (von_entropy_offset iv mu k H Hok) as E'. pose proof (is_entropy_unique _ _ _ E E') as Q.
  apply von_ok_spec in Hok as [Hm Hk0]. pose proof PI_gt3 as P3. pose proof (i0_ge1 iv k H) as I0.
  assert (L : 1 < ln (2 * PI)).
  { rewrite <- (ln_exp 1). apply ln_increasing; [apply exp_pos|]. pose proof exp_le_3. lra. }
  assert (V : von_entropy iv k <= 1 / 10).
  { unfold von_entropy. assert (0 <= ln (iv 0%nat k)) by (rewrite <- ln_1; destruct (Req_dec (iv 0%nat k) 1) as [->|]; [lra|left; apply ln_increasing; lra]).
    pose proof (iv_abs iv 1 k H) as A. pose proof (Rle_abs (iv 1%nat k)).
    assert (iv 1%nat k / iv 0%nat k <= 1) by (apply Rmult_le_reg_r with (iv 0%nat k); [lra|]; unfold Rdiv; rewrite Rmult_assoc, Rinv_l by lra; lra).
    replace (k * iv 1%nat k / iv 0%nat k) with (k * (iv 1%nat k / iv 0%nat k)) by (unfold Rdiv; ring). nra. }
  lra.
Qed.

(** ** The derivative of I_0 is I_1 *)
Lemma exp_second u : Rabs u <= 1 / 4 -> Rabs (exp u - 1 - u) <= u ^ 2.
Proof.
  intros Hu. apply abs_le_inv in Hu. assert (A : 1 + u <= exp u).
  { destruct (Req_dec u 0) as [->|N]; [rewrite exp_0; lra|]. pose proof (exp_ineq1 u N). lra. }
  assert (B : 1 + - (u / 2) <= exp (- (u / 2))).
  { destruct (Req_dec u 0) as [->|N]; [replace (- (0 / 2)) with 0 by field; rewrite exp_0; lra|]. pose proof (exp_ineq1 (- (u / 2)) ltac:(lra)). lra. }
  assert (E : exp u * (exp (- (u / 2)) * exp (- (u / 2))) = 1).
  { rewrite <- !exp_plus. replace (u + (- (u / 2) + - (u / 2))) with 0 by field. apply exp_0. }
  pose proof (exp_pos u). set (w := exp (- (u / 2))) in *. set (y := exp u) in *.
  assert (W : (1 - u / 2) * (1 - u / 2) <= w * w) by nra.
  assert (U : y * ((1 - u / 2) * (1 - u / 2)) <= 1) by nra.
  apply Rabs_le. split; [pose proof (pow2_ge_0 u); lra|].
  assert (Q : 1 <= (1 + u + u ^ 2) * ((1 - u / 2) * (1 - u / 2))).
  { replace ((1 + u + u ^ 2) * ((1 - u / 2) * (1 - u / 2))) with (1 + u ^ 2 / 4 * (1 - 3 * u + u ^ 2)) by field.
    pose proof (pow2_ge_0 u). assert (0 <= 1 - 3 * u + u ^ 2) by lra. assert (0 <= u ^ 2 * (1 - 3 * u + u ^ 2)) by (apply Rmult_le_pos; assumption). lra. }
  assert (0 < (1 - u / 2) * (1 - u / 2)) by nra.
  assert (y <= 1 + u + u ^ 2); [|lra]. apply Rmult_le_reg_r with ((1 - u / 2) * (1 - u / 2)); [assumption|]. lra.
Qed.
Lemma i0_d iv k : is_iv iv -> derivable_pt_lim (iv 0%nat) k (iv 1%nat k).
Proof.
  intros H eps He. pose proof PI_pos. set (M := exp (Rabs k)). assert (HM : 0 < M) by apply exp_pos.
  assert (Hd : 0 < Rmin (1 / 4) (eps / (2 * M))) by (apply Rmin_pos; [lra|apply Rdiv_lt_0_compat; lra]).
  exists (mkposreal _ Hd). intros h Hh Hl. cbn [pos] in Hl.
  assert (L1 : Rabs h < 1 / 4) by (eapply Rlt_le_trans; [exact Hl|apply Rmin_l]).
  assert (L2 : Rabs h < eps / (2 * M)) by (eapply Rlt_le_trans; [exact Hl|apply Rmin_r]).
  assert (ID : integral (fun t => (vE (k + h) t + (-1) * vE k t) + (- h) * (cos t * vE k t)) 0 (2 * PI)
                ((2 * PI * iv 0%nat (k + h) + (-1) * (2 * PI * iv 0%nat k)) + (- h) * (2 * PI * iv 1%nat k))).
  { apply integral_lin; [apply integral_lin; apply i0_int; exact H|apply i1_int; exact H]. }
  assert (B : Rabs ((2 * PI * iv 0%nat (k + h) + (-1) * (2 * PI * iv 0%nat k)) + (- h) * (2 * PI * iv 1%nat k)) <= M * h ^ 2 * (2 * PI - 0)).
  { apply (integral_abs _ (fun _ => M * h ^ 2) 0 (2 * PI) _ _ ltac:(lra)) with (2 := ID); [|apply integral_const].
    intros t _. unfold vE. replace ((k + h) * cos t) with (k * cos t + h * cos t) by ring. rewrite exp_plus.
    replace (exp (k * cos t) * exp (h * cos t) + -1 * exp (k * cos t) + - h * (cos t * exp (k * cos t)))
      with (exp (k * cos t) * (exp (h * cos t) - 1 - h * cos t)) by ring.
    rewrite Rabs_mult, (Rabs_right (exp _)) by (left; apply exp_pos). pose proof (COS_bound t).
    assert (Ac : Rabs (cos t) <= 1) by (apply Rabs_le; lra).
    assert (Hc : Rabs (h * cos t) <= 1 / 4) by (rewrite Rabs_mult; pose proof (Rabs_pos h); pose proof (Rabs_pos (cos t)); nra).
    apply Rmult_le_compat; [left; apply exp_pos|apply Rabs_pos| |].
    - assert (Q : k * cos t <= Rabs k) by (eapply Rle_trans; [apply Rle_abs|]; rewrite Rabs_mult; pose proof (Rabs_pos k); pose proof (Rabs_pos (cos t)); nra).
      unfold M. destruct Q as [Q|Q]; [left; apply exp_increasing; exact Q|rewrite Q; right; reflexivity].
    - eapply Rle_trans; [apply exp_second; exact Hc|]. rewrite Rpow_mult_distr. pose proof (pow2_ge_0 h). assert (cos t ^ 2 <= 1) by nra. nra. }
  replace ((iv 0%nat (k + h) - iv 0%nat k) / h - iv 1%nat k)
    with ((2 * PI * iv 0%nat (k + h) + -1 * (2 * PI * iv 0%nat k) + - h * (2 * PI * iv 1%nat k)) / (2 * PI * h)) by (field; repeat split; try exact Hh; lra).
  unfold Rdiv. rewrite Rabs_mult, Rabs_inv, (Rabs_mult (2 * PI) h), (Rabs_right (2 * PI)) by lra.
  pose proof (Rabs_pos_lt h Hh) as Hp. apply Rmult_lt_reg_r with (2 * PI * Rabs h); [nra|]. rewrite Rmult_assoc, Rinv_l, Rmult_1_r by nra.
  eapply Rle_lt_trans; [exact B|]. rewrite <- (pow2_abs h).
  assert (L3 : Rabs h * (2 * M) < eps) by (apply (Rmult_lt_compat_r (2 * M)) in L2; [|lra]; replace (eps / (2 * M) * (2 * M)) with eps in L2 by (field; lra); exact L2).
  replace (M * Rabs h ^ 2 * (2 * PI - 0)) with (Rabs h * M * (2 * PI * Rabs h)) by ring.
  apply Rmult_lt_compat_r; [nra|]. nra.
Qed.

(** ** The negative log-likelihood and its gradient *)
Definition vC (s : list (R * R)) (mu : R) : R := Rsum (map (fun p => snd p * cos (fst p - mu)) s).
Definition vSn (s : list (R * R)) (mu : R) : R := Rsum (map (fun p => snd p * sin (fst p - mu)) s).
Lemma vC_d s mu : derivable_pt_lim (vC s) mu (vSn s mu).
Proof.
  unfold vC, vSn. apply (dlim_Rsum (fun p mu => snd p * cos (fst p - mu)) (fun p => snd p * sin (fst p - mu))).
  intros p _. eapply dlim_eq; [|apply dlim_scal; apply dlim_cos; apply dlim_minus; [apply dlim_const|apply dlim_id]]. ring.
Qed.
Definition vnll (iv : nat -> R -> R) (s : list (R * R)) (mu k : R) : R := - k * vC s mu + Rsum (map snd s) * (ln (2 * PI) + ln (iv 0%nat k)).
Lemma vnll_dmu iv s mu k : derivable_pt_lim (fun m => vnll iv s m k) mu (- k * vSn s mu).
Proof.
  unfold vnll. eapply dlim_eq; [|apply dlim_plus; [apply dlim_scal; apply vC_d|apply dlim_const]]. ring.
Qed.
Lemma vnll_dk iv s mu k : is_iv iv -> derivable_pt_lim (fun q => vnll iv s mu q) k (- vC s mu + Rsum (map snd s) * (iv 1%nat k / iv 0%nat k)).
Proof.
  intros H. unfold vnll. pose proof (i0_pos iv k H).
  eapply dlim_eq; [|apply dlim_plus; [apply dlim_mult; [apply dlim_opp; apply dlim_id|apply dlim_const]|apply dlim_scal; apply dlim_plus; [apply dlim_const|apply dlim_ln; [exact H0|apply i0_d; exact H]]]].
  cbv beta. field. lra.
Qed.
Lemma von_nll_fin iv s mu k : 0 < k -> von_nll iv s mu k = Fin (vnll iv s mu k).
Proof. intros Hk. unfold von_nll. rewrite (proj2 (Rltb_true 0 k) Hk). reflexivity. Qed.
(** The true gradient: the second component agrees with the code, the first is its negative. *)
Lemma von_gradient iv s mu k : is_iv iv -> 0 < k ->
  is_gradient (von_nll iv s) mu k (- fst (von_grad iv s mu k), snd (von_grad iv s mu k)).
Proof.
  intros H Hk. exists (vnll iv s). split.
  - exists k. split; [exact Hk|]. intros x y _ Hy. apply von_nll_fin. apply Rabs_def2 in Hy. lra.
  - cbn [fst snd]. split; [eapply dlim_eq; [|apply vnll_dmu]; unfold von_grad, vSn; cbn [fst]; ring|].
    eapply dlim_eq; [|apply vnll_dk; exact H]. reflexivity.
Qed.
Lemma gradient_unique obj a b g g' : is_gradient obj a b g -> is_gradient obj a b g' -> g = g'.
Proof.
  intros (v & (d & Hd & E) & A & B) (v' & (d' & Hd' & E') & A' & B').
  set (e := Rmin d d'). assert (He : 0 < e) by (apply Rmin_pos; assumption).
  assert (Le : e <= d /\ e <= d') by (split; [apply Rmin_l|apply Rmin_r]).
  assert (Q : forall x y, Rabs (x - a) < e -> Rabs (y - b) < e -> v x y = v' x y).
  { intros x y Hx Hy. assert (Fin (v x y) = Fin (v' x y)); [|congruence]. rewrite <- E by lra. rewrite <- E' by lra. reflexivity. }
  assert (Z : forall c, Rabs (c - c) < e) by (intros; rewrite Rminus_diag_eq, Rabs_R0 by reflexivity; exact He).
  destruct g as [g1 g2], g' as [h1 h2]. cbn [fst snd] in *. f_equal.
  - eapply dlim_unique; [exact A|]. eapply dlim_ext_loc with (a := a - e) (b := a + e) (3 := A'); [lra|].
    intros y Hy. symmetry. apply Q; [apply Rabs_def1; lra|apply Z].
  - eapply dlim_unique; [exact B|]. eapply dlim_ext_loc with (a := b - e) (b := b + e) (3 := B'); [lra|].
    intros y Hy. symmetry. apply Q; [apply Z|apply Rabs_def1; lra].
Qed.
Lemma von_gradient_wrong iv s mu k : is_iv iv -> 0 < k -> vSn s mu <> 0 -> ~ is_gradient (von_nll iv s) mu k (von_grad iv s mu k).
Proof.
  intros H Hk Hs G. pose proof (gradient_unique _ _ _ _ _ G (von_gradient iv s mu k H Hk)) as E.
  assert (E1 : fst (von_grad iv s mu k) = - fst (von_grad iv s mu k)) by (rewrite E at 1; reflexivity).
  unfold von_grad in E1. cbn [fst] in E1. fold (vSn s mu) in E1. assert (k * vSn s mu = 0) by lra.
  apply Rmult_integral in H0 as [|]; lra.
Qed.

(** ** The location estimate *)
Lemma von_loglik iv s mu k : is_iv iv -> loglik (von_pdf iv mu k) s = - vnll iv s mu k.
Proof.
  intros H. pose proof PI_pos. pose proof (i0_pos iv k H). unfold loglik, vnll, vC.
  rewrite (Rsum_ext_map _ (fun p => k * (snd p * cos (fst p - mu)) + - (ln (2 * PI) + ln (iv 0%nat k)) * snd p)).
  - rewrite Rsum_plus_map, !Rsum_scal_map. ring.
  - intros p _. rewrite <- von_logpdf_ln by exact H. unfold von_logpdf. rewrite ln_mult by lra. ring.
Qed.
Lemma vC_split s mu : vC s mu = vC s 0 * cos mu + vSn s 0 * sin mu.
Proof.
  unfold vC, vSn. rewrite (Rmult_comm _ (cos mu)), (Rmult_comm _ (sin mu)), <- !Rsum_scal_map, <- Rsum_plus_map. apply Rsum_ext_map. intros p _.
  rewrite !Rminus_0_r, cos_minus. ring.
Qed.
Lemma vC_le s mu : Rabs (vC s mu) <= hypot (vC s 0) (vSn s 0).
Proof.
  rewrite vC_split. assert (U : hypot (cos mu) (sin mu) = 1).
  { unfold hypot. pose proof (sin2_cos2 mu) as E. unfold Rsqr in E. replace (cos mu * cos mu + sin mu * sin mu) with 1 by lra. apply sqrt_1. }
  assert (U' : hypot (- cos mu) (- sin mu) = 1).
  { rewrite <- U. unfold hypot. f_equal. ring. }
  apply Rabs_le. split.
  - pose proof (cauchy_plane (vC s 0) (vSn s 0) (- cos mu) (- sin mu)) as B. rewrite U' in B. lra.
  - pose proof (cauchy_plane (vC s 0) (vSn s 0) (cos mu) (sin mu)) as B. rewrite U in B. lra.
Qed.

Lemma von_fit_spec s mu : von_fit_mu s = Ok mu ->
  0 < wtotal s /\ 0 <= mu <= 2 * PI /\ hypot (vC s 0) (vSn s 0) - vC s mu <= 2 * (/ 10 ^ 12 * wtotal s) /\
  (/ 10 ^ 12 * wtotal s < hypot (vC s 0) (vSn s 0) -> vC s mu = hypot (vC s 0) (vSn s 0)).
Proof.
  intros E. unfold von_fit_mu in E. destruct s as [|p0 s0]; [discriminate|]. set (s := p0 :: s0) in *.
  destruct (existsb _ s) eqn:Ex; [discriminate|]. destruct (Rleb (wtotal s) 0) eqn:Ew; [discriminate|]. apply Rleb_false in Ew.
  cbv zeta in E. set (s' := map (fun p => (wrap_angles (fst p), snd p)) s) in *.
  assert (W' : wtotal s' = wtotal s) by apply wrap_total.
  destruct (wrap_moment s 1 0) as [M1 M2]. fold s' in M1, M2.
  assert (C1 : Csum s' = vC s 0).
  { unfold Csum, vC. transitivity (Rsum (map (fun x => snd x * cos (INR 1 * (fst x - 0))) s')); [|rewrite M1]; apply Rsum_ext_map; intros p _; cbn [INR]; f_equal; f_equal; ring. }
  assert (S1 : Ssum s' = vSn s 0).
  { unfold Ssum, vSn. transitivity (Rsum (map (fun x => snd x * sin (INR 1 * (fst x - 0))) s')); [|rewrite M2]; apply Rsum_ext_map; intros p _; cbn [INR]; f_equal; f_equal; ring. }
  assert (R1 : Rlen s' = hypot (vC s 0) (vSn s 0)) by (unfold Rlen, hypot; rewrite C1, S1; reflexivity).
  assert (Rs : circ_r_s s' = hypot (vC s 0) (vSn s 0) / wtotal s) by (rewrite circ_r_s_eq, R1, W'; [reflexivity|lra]).
  set (Rl := hypot (vC s 0) (vSn s 0)) in *. pose proof PI2_pos as Hp.
  assert (RW : Rl = circ_r_s s' * wtotal s) by (rewrite Rs; field; lra).
  assert (Rg : 0 <= mu <= 2 * PI).
  { destruct (fst (circ_mean_and_r_s s')); injection E as <-; unfold wrap_direction; apply wrap_range. }
  split; [exact Ew|]. split; [exact Rg|].
  destruct (circ_mean_and_r_s_cases s') as [[Hr Em]|[Hr Em]]; rewrite Em in E; cbn [fst] in E.
  - split.
    + pose proof (vC_le s mu) as B. apply abs_le_inv in B. fold Rl in B. nra.
    + intros L. exfalso. nra.
  - destruct (mean_dir_polar s' ltac:(lra) ltac:(lra)) as (P1 & P2 & P3). rewrite C1, R1 in P1. rewrite S1, R1 in P2.
    assert (D : same_dir mu (mean_dir s')).
    { injection E as <-. unfold wrap_direction. eapply same_dir_trans; [apply wrap_same|]. apply pymod_same_dir. }
    assert (V : vC s mu = Rl).
    { rewrite vC_split, P1, P2, (same_dir_cos _ _ D), (same_dir_sin _ _ D). pose proof (sin2_cos2 (mean_dir s')) as Q. unfold Rsqr in Q.
      transitivity (Rl * (sin (mean_dir s') * sin (mean_dir s') + cos (mean_dir s') * cos (mean_dir s'))); [ring|rewrite Q; ring]. }
    split; [rewrite V; nra|intros _; exact V].
Qed.
Lemma von_fit_max iv s mu k mu' : is_iv iv -> von_fit_mu s = Ok mu -> 0 < k ->
  von_ok mu k = true /\
  loglik (von_pdf iv mu' k) s <= loglik (von_pdf iv mu k) s + 2 * k * (/ 10 ^ 12 * wtotal s) /\
  (/ 10 ^ 12 * wtotal s < hypot (vC s 0) (vSn s 0) -> loglik (von_pdf iv mu' k) s <= loglik (von_pdf iv mu k) s).
Proof.
  intros H E Hk. destruct (von_fit_spec s mu E) as (W & Rg & A & B).
  assert (D : loglik (von_pdf iv mu' k) s - loglik (von_pdf iv mu k) s = k * (vC s mu' - vC s mu)).
  { rewrite !von_loglik by exact H. unfold vnll. ring. }
  pose proof (vC_le s mu') as L. apply abs_le_inv in L.
  split; [|split].
  - unfold von_ok. rewrite !andb_true_iff, !Rleb_true, Rltb_true. lra.
  - nra.
  - intros Q. rewrite B in D by exact Q. nra.
Qed.

(** ** The distribution function: small concentrations and the window below 2 pi *)
Lemma von_near_uniform iv mu k x v : is_iv iv -> 0 < k <= 1 / 10 -> 0 <= x <= 2 * PI ->
  integral (von_pdf iv mu k) 0 x v -> Rabs (x / (2 * PI) - v) <= 4 * k.
Proof.
  intros H Hk Hx Hv. pose proof PI_gt3 as P3.
  pose proof (i0_ge1 iv k H) as I1. pose proof (i0_le iv k H) as I2. rewrite (Rabs_right k) in I2 by lra.
  assert (Ek : exp k <= 1 + 2 * k).
  { assert (B := exp_second k ltac:(rewrite Rabs_right by lra; lra)). apply abs_le_inv in B. nra. }
  assert (ID : integral (fun t => von_pdf iv mu k t + (-1) * (1 / (2 * PI))) 0 x (v + (-1) * (1 / (2 * PI) * (x - 0)))).
  { apply integral_lin; [exact Hv|apply integral_const]. }
  assert (P0 : 0 < 1 / (2 * PI)) by (apply Rdiv_lt_0_compat; lra).
  assert (B : Rabs (v + (-1) * (1 / (2 * PI) * (x - 0))) <= 4 * k * (1 / (2 * PI)) * (x - 0)).
  { apply (integral_abs _ (fun _ => 4 * k * (1 / (2 * PI))) 0 x _ _ ltac:(lra)) with (2 := ID); [|apply integral_const].
    intros t _. replace (von_pdf iv mu k t + -1 * (1 / (2 * PI))) with ((vE k (t - mu) / iv 0%nat k - 1) * (1 / (2 * PI))) by (unfold von_pdf, vE; field; lra).
    rewrite Rabs_mult, (Rabs_right (1 / (2 * PI))) by lra. apply Rmult_le_compat_r; [lra|].
    pose proof (vE_le k (t - mu) ltac:(lra)) as U. assert (Lo : 1 - k <= vE k (t - mu)).
    { unfold vE. pose proof (COS_bound (t - mu)). assert (1 + k * cos (t - mu) <= exp (k * cos (t - mu))).
      { destruct (Req_dec (k * cos (t - mu)) 0) as [->|N]; [rewrite exp_0; lra|]. pose proof (exp_ineq1 _ N). lra. } nra. }
    apply Rabs_le. split.
    - apply Rmult_le_reg_r with (iv 0%nat k); [lra|]. unfold Rdiv. rewrite Rmult_minus_distr_r, Rmult_assoc, Rinv_l by lra. nra.
    - apply Rmult_le_reg_r with (iv 0%nat k); [lra|]. unfold Rdiv. rewrite Rmult_minus_distr_r, Rmult_assoc, Rinv_l by lra. nra. }
  replace (x / (2 * PI) - v) with (- (v + -1 * (1 / (2 * PI) * (x - 0)))) by (field; lra). rewrite Rabs_Ropp.
  eapply Rle_trans; [exact B|]. replace (4 * k * (1 / (2 * PI)) * (x - 0)) with (4 * k * (x / (2 * PI))) by (field; lra).
  assert (x / (2 * PI) <= 1) by (apply Rmult_le_reg_r with (2 * PI); [lra|]; unfold Rdiv; rewrite Rmult_assoc, Rinv_l by lra; lra).
  assert (0 <= x / (2 * PI)) by (apply Rmult_le_pos; [lra|left; apply Rinv_0_lt_compat; lra]). nra.
Qed.
Lemma von_cdf_small iv num mu k x v : is_iv iv -> von_ok mu k = true -> 0 < x < 2 * PI -> close_2pi x = false -> k < / 10 ^ 9 ->
  integral (von_pdf iv mu k) 0 x v -> Rabs (von_cdf iv num mu k x - v) <= 4 / 10 ^ 9.
Proof.
  intros H Hok Hx Hcl Hk Hv. apply von_ok_spec in Hok as [Hm Hk0].
  unfold von_cdf. rewrite (proj2 (Rltb_true k _)), Hcl by exact Hk.
  pose proof (von_near_uniform iv mu k x v H ltac:(lra) ltac:(lra) Hv). lra.
Qed.
(** In the last 6e-5 before a full turn the returned value is 1 unless the quadrature is used. *)
Lemma von_cdf_window iv num mu k x : is_iv iv -> von_ok mu k = true -> k <= 460 -> 0 < x < 2 * PI -> 2 * PI - x <= 6 / 100000 -> von_cdf iv num mu k x = 1.
Proof.
  intros H Hok Hk Hx Hw. apply von_ok_spec in Hok as [Hm Hk0]. pose proof PI_gt3 as P3.
  assert (Cl : close_2pi x = true) by (apply close_2pi_spec; [lra|]; lra).
  unfold von_cdf. rewrite Cl. destruct (Rltb k _); [reflexivity|]. cbv zeta.
  destruct (von_loop _ _ _ _ _ _ _ _) as [[a b]|] eqn:El; [reflexivity|exfalso].
  revert El. apply von_converges; [exact H|lra].
Qed.
Lemma von_not_describes iv num mu k : is_iv iv -> von_ok mu k = true -> k <= 460 ->
  ~ describes (public_pdf (von_ok mu k) (von_pdf iv mu k)) (public_cdf (von_ok mu k) (von_cdf iv num mu k)).
Proof.
  intros H Hok Hk (f & F & Ep & Ec & _ & _ & F0 & F1 & Hint & _). pose proof PI_gt3 as P3. rewrite Hok in *.
  pose proof (pub_pdf_on _ _ Ep) as Ef.
  set (x := 2 * PI - 6 / 100000). assert (Hx : 0 < x < 2 * PI) by (unfold x; lra).
  assert (Fx : F x = 1).
  { assert (E : Fin (F x) = Fin 1); [|congruence]. rewrite <- Ec, public_cdf_fin. unfold pub_F. rewrite wrap_in by lra.
    rewrite (proj2 (Rleb_false _ _)), (proj2 (Rltb_true 0 x)) by lra. f_equal. apply von_cdf_window; try assumption. unfold x. lra. }
  destruct (Hint x (2 * PI)) as [_ I]; [lra|lra|lra|]. rewrite Fx, F1 in I.
  assert (I2 : integral (von_pdf iv mu k) x (2 * PI) (1 - 1)) by (revert I; apply integral_ext; [lra|intros t Ht; apply Ef; lra]).
  destruct (continuous_integral (vE k) (x - mu) (2 * PI - mu)) as [w W]; [lra|intros; apply vE_cont|].
  assert (Wlow : exp (- k) * (2 * PI - mu - (x - mu)) <= w).
  { apply (integral_le (fun _ => exp (- k)) (vE k) (x - mu) (2 * PI - mu)) with (4 := W); [lra| |apply integral_const].
    intros t _. unfold vE. apply von_ok_spec in Hok as [_ Hk0]. pose proof (COS_bound t). assert (L : - k <= k * cos t) by nra.
    destruct L as [L|L]; [left; apply exp_increasing; exact L|rewrite L; right; reflexivity]. }
  pose proof (integral_unique _ _ _ _ _ I2 (von_int iv mu k x (2 * PI) w H ltac:(lra) W)) as E.
  pose proof (i0_pos iv k H) as I0. pose proof (exp_pos (- k)) as Ek.
  assert (0 < w) by (unfold x in Wlow; nra). assert (0 < w / (2 * PI * iv 0%nat k)) by (apply Rdiv_lt_0_compat; nra). lra.
Qed.
