(** Trigonometric moments of triangular, cardioid and wrapcauchy; the maximum likelihood
    estimate of triangular. *)
From Verif Require Import Prelude NpModel NpProofs CircleSpec IntSpec IntProofs DistModel DistSpec DistProofs Dist2Proofs Dist4Proofs Dist5Proofs Dist6Proofs.

Lemma integral_val f a b v w : v = w -> integral f a b v -> integral f a b w.
Proof. intros ->. auto. Qed.

(** ** Integrals of trigonometric functions over a turn *)
Lemma cos_per (n : nat) x : cos (INR n * (x + 2 * PI)) = cos (INR n * x).
Proof.
  replace (INR n * (x + 2 * PI)) with (INR n * x + 2 * PI * IZR (Z.of_nat n)) by (rewrite <- INR_IZR_INZ; ring).
  apply cos_turns.
Qed.
Lemma sin_per (n : nat) x : sin (INR n * (x + 2 * PI)) = sin (INR n * x).
Proof.
  replace (INR n * (x + 2 * PI)) with (INR n * x + 2 * PI * IZR (Z.of_nat n)) by (rewrite <- INR_IZR_INZ; ring).
  apply sin_turns.
Qed.
Lemma dlim_mulc c x : derivable_pt_lim (fun y => c * y) x c.
Proof. eapply dlim_eq; [|apply dlim_scal; apply dlim_id]. ring. Qed.
Lemma cos_n_cont c x : continuity_pt (fun t => cos (c * t)) x.
Proof. eapply dlim_cont. apply dlim_cos. apply dlim_mulc. Qed.
Lemma sin_n_cont c x : continuity_pt (fun t => sin (c * t)) x.
Proof. eapply dlim_cont. apply dlim_sin. apply dlim_mulc. Qed.
Lemma int_cos_n (n : nat) : (1 <= n)%nat -> integral (fun t => cos (INR n * t)) 0 (2 * PI) 0.
Proof.
  intros Hn. pose proof PI_pos. assert (P : 0 < INR n) by (apply lt_0_INR; lia).
  apply (integral_val _ _ _ (sin (INR n * (2 * PI)) / INR n - sin (INR n * 0) / INR n)); revgoals.
  - apply (ftc _ (fun t => sin (INR n * t) / INR n)); [lra|intros; apply cos_n_cont|].
    intros x _. eapply dlim_eq; [|apply dlim_divc; apply dlim_sin; apply dlim_mulc]. field. lra.
  - replace (INR n * (2 * PI)) with (INR n * (0 + 2 * PI)) by ring. rewrite sin_per. ring.
Qed.
Lemma int_sin_n (n : nat) : integral (fun t => sin (INR n * t)) 0 (2 * PI) 0.
Proof.
  pose proof PI_pos. destruct n as [|n].
  - cbn [INR]. apply (integral_val _ _ _ (0 * (2 * PI - 0))); [ring|].
    apply (integral_ext (fun _ => 0)); [lra| |apply integral_const].
    intros x _. rewrite Rmult_0_l, sin_0. reflexivity.
  - assert (P : 0 < INR (S n)) by (apply lt_0_INR; lia).
    apply (integral_val _ _ _ (- cos (INR (S n) * (2 * PI)) / INR (S n) - - cos (INR (S n) * 0) / INR (S n))); revgoals.
    + apply (ftc _ (fun t => - cos (INR (S n) * t) / INR (S n))); [lra|intros; apply sin_n_cont|].
      intros x _. eapply dlim_eq; [|apply dlim_divc; apply dlim_opp; apply dlim_cos; apply dlim_mulc]. field. lra.
    + replace (INR (S n) * (2 * PI)) with (INR (S n) * (0 + 2 * PI)) by ring. rewrite cos_per. field. lra.
Qed.

(** ** wrapcauchy centred at 0 *)
Lemma cont_mult f g x : continuity_pt f x -> continuity_pt g x -> continuity_pt (fun t => f t * g t) x.
Proof. intros. apply (continuity_pt_mult f g); assumption. Qed.
Lemma cont_plus f g x : continuity_pt f x -> continuity_pt g x -> continuity_pt (fun t => f t + g t) x.
Proof. intros. apply (continuity_pt_plus f g); assumption. Qed.
Lemma cont_const c x : continuity_pt (fun _ => c) x.
Proof. eapply dlim_cont. apply dlim_const. Qed.

Definition wcm (rho : R) (n : nat) (c s : R) : Prop :=
  integral (fun t => cos (INR n * t) * wc_pdf 0 rho t) 0 (2 * PI) c /\
  integral (fun t => sin (INR n * t) * wc_pdf 0 rho t) 0 (2 * PI) s.

Lemma wcm_exists rho n : 0 <= rho < 1 -> exists c s, wcm rho n c s.
Proof.
  intros H. pose proof PI_pos.
  destruct (continuous_integral (fun t => cos (INR n * t) * wc_pdf 0 rho t) 0 (2 * PI)) as [c Hc]; [lra| |].
  { intros x _. apply cont_mult; [apply cos_n_cont|apply wc_pdf_cont; exact H]. }
  destruct (continuous_integral (fun t => sin (INR n * t) * wc_pdf 0 rho t) 0 (2 * PI)) as [s Hs]; [lra| |].
  { intros x _. apply cont_mult; [apply sin_n_cont|apply wc_pdf_cont; exact H]. }
  exists c, s. split; assumption.
Qed.

Lemma wcm_0 rho : 0 <= rho < 1 -> wcm rho 0 1 0.
Proof.
  intros H. pose proof PI_pos. split.
  - apply (integral_ext (wc_pdf 0 rho)); [lra| |].
    + intros x _. cbn [INR]. rewrite Rmult_0_l, cos_0. ring.
    + replace 1 with (wcI 0 rho (2 * PI) - wcI 0 rho 0) by (rewrite wcI_0, wcI_2pi; ring).
      apply ftc; [lra|intros; apply wc_pdf_cont; exact H|intros; apply wcI_d; exact H].
  - apply (integral_ext (fun _ => 0)); [lra| |].
    + intros x _. cbn [INR]. rewrite Rmult_0_l, sin_0. ring.
    + apply (integral_val _ _ _ (0 * (2 * PI - 0))); [ring|apply integral_const].
Qed.

(** D f is constant; expanding D cos(n t) f gives a recurrence. *)
Lemma wc_pdf_D rho t : 0 <= rho < 1 ->
  (1 + rho ^ 2 - 2 * rho * cos t) * wc_pdf 0 rho t = (1 - rho ^ 2) / (2 * PI).
Proof.
  intros H. pose proof PI_pos. pose proof (wc_D_pos rho t H). unfold wc_pdf. rewrite Rminus_0_r. field.
  split; lra.
Qed.

Lemma wcm_step rho n c0 s0 c1 s1 c2 s2 : 0 <= rho < 1 ->
  wcm rho n c0 s0 -> wcm rho (S n) c1 s1 -> wcm rho (S (S n)) c2 s2 ->
  (1 + rho ^ 2) * c1 = rho * (c0 + c2) /\ (1 + rho ^ 2) * s1 = rho * (s0 + s2).
Proof.
  intros H [A0 B0] [A1 B1] [A2 B2]. pose proof PI_pos as Hp. assert (L : 0 <= 2 * PI) by lra.
  assert (E : forall t, cos (INR n * t) + cos (INR (S (S n)) * t) = 2 * cos t * cos (INR (S n) * t) /\
                        sin (INR n * t) + sin (INR (S (S n)) * t) = 2 * cos t * sin (INR (S n) * t)).
  { intros t. rewrite !S_INR. set (a := (INR n + 1) * t).
    replace (INR n * t) with (a - t) by (unfold a; ring).
    replace ((INR n + 1 + 1) * t) with (a + t) by (unfold a; ring).
    rewrite cos_plus, cos_minus, sin_plus, sin_minus. split; ring. }
  split.
  - pose proof (integral_plus _ _ _ _ _ _ L A0 A2) as K.
    pose proof (integral_lin _ _ _ _ (- rho / (1 + rho ^ 2)) _ _ A1 K) as K2.
    assert (K3 : integral (fun t => (1 - rho ^ 2) / (2 * PI) / (1 + rho ^ 2) * cos (INR (S n) * t)) 0 (2 * PI)
                   ((1 - rho ^ 2) / (2 * PI) / (1 + rho ^ 2) * 0)).
    { apply integral_scal; [exact L|]. apply int_cos_n. lia. }
    assert (K4 : c1 + - rho / (1 + rho ^ 2) * (c0 + c2) = (1 - rho ^ 2) / (2 * PI) / (1 + rho ^ 2) * 0).
    { eapply integral_unique; [exact K2|]. revert K3. apply integral_ext; [exact L|]. intros t _. cbv beta.
      rewrite <- (wc_pdf_D rho t H).
      replace (cos (INR (S n) * t) * wc_pdf 0 rho t + - rho / (1 + rho ^ 2) * (cos (INR n * t) * wc_pdf 0 rho t + cos (INR (S (S n)) * t) * wc_pdf 0 rho t))
        with ((cos (INR (S n) * t) + - rho / (1 + rho ^ 2) * (cos (INR n * t) + cos (INR (S (S n)) * t))) * wc_pdf 0 rho t) by ring.
      rewrite (proj1 (E t)). field. nra. }
    assert (0 < 1 + rho ^ 2) by nra.
    apply (Rmult_eq_reg_l (/ (1 + rho ^ 2))); [|apply Rgt_not_eq, Rinv_0_lt_compat; lra].
    rewrite <- Rmult_assoc, Rinv_l, Rmult_1_l by lra.
    replace (- rho / (1 + rho ^ 2) * (c0 + c2)) with (- (/ (1 + rho ^ 2) * (rho * (c0 + c2)))) in K4 by (field; lra). lra.
  - pose proof (integral_plus _ _ _ _ _ _ L B0 B2) as K.
    pose proof (integral_lin _ _ _ _ (- rho / (1 + rho ^ 2)) _ _ B1 K) as K2.
    assert (K3 : integral (fun t => (1 - rho ^ 2) / (2 * PI) / (1 + rho ^ 2) * sin (INR (S n) * t)) 0 (2 * PI)
                   ((1 - rho ^ 2) / (2 * PI) / (1 + rho ^ 2) * 0)).
    { apply integral_scal; [exact L|]. apply int_sin_n. }
    assert (K4 : s1 + - rho / (1 + rho ^ 2) * (s0 + s2) = (1 - rho ^ 2) / (2 * PI) / (1 + rho ^ 2) * 0).
    { eapply integral_unique; [exact K2|]. revert K3. apply integral_ext; [exact L|]. intros t _. cbv beta.
      rewrite <- (wc_pdf_D rho t H).
      replace (sin (INR (S n) * t) * wc_pdf 0 rho t + - rho / (1 + rho ^ 2) * (sin (INR n * t) * wc_pdf 0 rho t + sin (INR (S (S n)) * t) * wc_pdf 0 rho t))
        with ((sin (INR (S n) * t) + - rho / (1 + rho ^ 2) * (sin (INR n * t) + sin (INR (S (S n)) * t))) * wc_pdf 0 rho t) by ring.
      rewrite (proj2 (E t)). field. nra. }
    assert (0 < 1 + rho ^ 2) by nra.
    apply (Rmult_eq_reg_l (/ (1 + rho ^ 2))); [|apply Rgt_not_eq, Rinv_0_lt_compat; lra].
    rewrite <- Rmult_assoc, Rinv_l, Rmult_1_l by lra.
    replace (- rho / (1 + rho ^ 2) * (s0 + s2)) with (- (/ (1 + rho ^ 2) * (rho * (s0 + s2)))) in K4 by (field; lra). lra.
Qed.

Lemma wcm_1 rho : 0 < rho < 1 -> wcm rho 1 rho 0.
Proof.
  intros H. assert (H0 : 0 <= rho < 1) by lra. pose proof PI_pos as Hp. assert (L : 0 <= 2 * PI) by lra. split.
  - destruct (wcm_0 rho H0) as [A _].
    pose proof (integral_lin _ _ _ _ (- (1 - rho ^ 2) / (2 * PI) / (1 + rho ^ 2)) _ _ A (integral_const 0 (2 * PI) 1)) as K.
    pose proof (integral_scal _ _ _ ((1 + rho ^ 2) / (2 * rho)) _ L K) as K2.
    apply (integral_val _ _ _ ((1 + rho ^ 2) / (2 * rho) * (1 + - (1 - rho ^ 2) / (2 * PI) / (1 + rho ^ 2) * (1 * (2 * PI - 0))))); revgoals.
    + revert K2. apply integral_ext; [exact L|]. intros t _. cbn [INR]. cbv beta.
      rewrite Rmult_0_l, cos_0, Rmult_1_l.
      replace (- (1 - rho ^ 2) / (2 * PI) / (1 + rho ^ 2) * 1) with (- ((1 - rho ^ 2) / (2 * PI)) / (1 + rho ^ 2)) by (field; nra).
      rewrite <- (wc_pdf_D rho t H0). rewrite Rmult_1_l. field. split; nra.
    + field. split; [lra|]. split; nra.
  - set (F := fun t => (1 - rho ^ 2) / (2 * PI) / (2 * rho) * ln (1 + rho ^ 2 - 2 * rho * cos t)).
    apply (integral_val _ _ _ (F (2 * PI) - F 0)); [unfold F; rewrite cos_2PI, cos_0; ring|].
    apply (ftc _ F); [exact L| |].
    + intros x _. apply cont_mult; [apply sin_n_cont|apply wc_pdf_cont; exact H0].
    + intros t _. pose proof (wc_D_pos rho t H0) as D. unfold F.
      eapply dlim_eq; [|apply dlim_scal; apply dlim_ln; [exact D|apply dlim_minus; [apply dlim_const|apply dlim_scal; apply derivable_pt_lim_cos]]].
      cbn [INR]. rewrite Rmult_1_l. unfold wc_pdf. rewrite Rminus_0_r. field. repeat split; lra.
Qed.

Lemma wcm_unique rho n c s c' s' : wcm rho n c s -> wcm rho n c' s' -> c = c' /\ s = s'.
Proof. intros [A B] [A' B']. split; eapply integral_unique; eassumption. Qed.

Lemma wcm_n rho n : 0 <= rho < 1 -> wcm rho n (rho ^ n) 0.
Proof.
  intros H. destruct (Req_dec rho 0) as [->|N].
  - destruct n as [|n]; [apply wcm_0; exact H|]. pose proof PI_pos. 
    assert (E : forall t, wc_pdf 0 0 t = 1 / (2 * PI)) by (intros t; unfold wc_pdf; field; lra).
    rewrite pow_i by lia.
    split.
    + apply (integral_ext (fun t => 1 / (2 * PI) * cos (INR (S n) * t))); [lra|intros t _; rewrite E; ring|].
      apply (integral_val _ _ _ (1 / (2 * PI) * 0)); [ring|]. apply integral_scal; [lra|]. apply int_cos_n. lia.
    + apply (integral_ext (fun t => 1 / (2 * PI) * sin (INR (S n) * t))); [lra|intros t _; rewrite E; ring|].
      apply (integral_val _ _ _ (1 / (2 * PI) * 0)); [ring|]. apply integral_scal; [lra|]. apply int_sin_n.
  - assert (H1 : 0 < rho < 1) by lra.
    enough (wcm rho n (rho ^ n) 0 /\ wcm rho (S n) (rho ^ S n) 0) by tauto.
    induction n as [|n [IH1 IH2]].
    + split; [apply wcm_0; exact H|]. rewrite pow_1. apply wcm_1. exact H1.
    + split; [exact IH2|]. destruct (wcm_exists rho (S (S n)) H) as [c [s W]].
      destruct (wcm_step rho n _ _ _ _ _ _ H IH1 IH2 W) as [E1 E2].
      assert (c = rho ^ S (S n)).
      { apply (Rmult_eq_reg_l rho); [|lra]. cbn [pow] in *. lra. }
      assert (s = 0) by (apply (Rmult_eq_reg_l rho); lra). subst. exact W.
Qed.

(** ** Moving the centre *)
(** [f0] centred at 0 with n-th moments (c, s); f (x) = f0 (x - m). *)
Lemma moment_shift f0 f m n c s : 0 <= m <= 2 * PI -> (forall x, continuity_pt f0 x) ->
  (forall x, f0 (x + 2 * PI) = f0 x) -> (forall x, 0 <= x <= 2 * PI -> f x = f0 (x - m)) ->
  integral (fun t => cos (INR n * t) * f0 t) 0 (2 * PI) c ->
  integral (fun t => sin (INR n * t) * f0 t) 0 (2 * PI) s ->
  integral (fun t => cos (INR n * t) * f t) 0 (2 * PI) (c * cos (INR n * m) - s * sin (INR n * m)) /\
  integral (fun t => sin (INR n * t) * f t) 0 (2 * PI) (c * sin (INR n * m) + s * cos (INR n * m)).
Proof.
  intros Hm C P E A B. pose proof PI_pos. assert (L : 0 <= 2 * PI) by lra.
  assert (G1 : integral (fun t => cos (INR n * (t + m)) * f0 t) 0 (2 * PI) (c * cos (INR n * m) - s * sin (INR n * m))).
  { pose proof (integral_scal _ _ _ (cos (INR n * m)) _ L A) as A'.
    pose proof (integral_lin _ _ _ _ (- sin (INR n * m)) _ _ A' B) as K.
    replace (c * cos (INR n * m) - s * sin (INR n * m)) with (cos (INR n * m) * c + - sin (INR n * m) * s) by ring.
    revert K. apply integral_ext; [exact L|]. intros t _. cbv beta.
    replace (INR n * (t + m)) with (INR n * t + INR n * m) by ring. rewrite cos_plus. ring. }
  assert (G2 : integral (fun t => sin (INR n * (t + m)) * f0 t) 0 (2 * PI) (c * sin (INR n * m) + s * cos (INR n * m))).
  { pose proof (integral_scal _ _ _ (sin (INR n * m)) _ L A) as A'.
    pose proof (integral_lin _ _ _ _ (cos (INR n * m)) _ _ A' B) as K.
    replace (c * sin (INR n * m) + s * cos (INR n * m)) with (sin (INR n * m) * c + cos (INR n * m) * s) by ring.
    revert K. apply integral_ext; [exact L|]. intros t _. cbv beta.
    replace (INR n * (t + m)) with (INR n * t + INR n * m) by ring. rewrite sin_plus. ring. }
  assert (Q : forall x, x + 2 * PI + m = x + m + 2 * PI) by (intros; ring).
  assert (D : forall x, derivable_pt_lim (fun t => INR n * (t + m)) x (INR n)).
  { intros x. eapply dlim_eq; [|apply dlim_scal; apply dlim_plus; [apply dlim_id|apply dlim_const]]. ring. }
  split.
  - pose proof (integral_shift (fun t => cos (INR n * (t + m)) * f0 t) m (c * cos (INR n * m) - s * sin (INR n * m)) Hm) as K.
    refine (integral_ext _ _ _ _ _ L _ (K _ _ G1)).
    + intros x Hx. cbv beta. rewrite E by exact Hx. f_equal. f_equal. ring.
    + intros x. apply cont_mult; [eapply dlim_cont; apply dlim_cos; apply D|apply C].
    + intros x. rewrite Q, cos_per, P. reflexivity.
  - pose proof (integral_shift (fun t => sin (INR n * (t + m)) * f0 t) m (c * sin (INR n * m) + s * cos (INR n * m)) Hm) as K.
    refine (integral_ext _ _ _ _ _ L _ (K _ _ G2)).
    + intros x Hx. cbv beta. rewrite E by exact Hx. f_equal. f_equal. ring.
    + intros x. apply cont_mult; [eapply dlim_cont; apply dlim_sin; apply D|apply C].
    + intros x. rewrite Q, sin_per, P. reflexivity.
Qed.

Lemma wc_pdf_per rho x : wc_pdf 0 rho (x + 2 * PI) = wc_pdf 0 rho x.
Proof.
  unfold wc_pdf. replace (x + 2 * PI - 0) with (x - 0 + 2 * PI * IZR 1) by ring. rewrite cos_turns. reflexivity.
Qed.

Lemma pub_pdf_on f g : (forall x, public_pdf true f x = Fin (g x)) -> forall x, 0 <= x <= 2 * PI -> g x = f x.
Proof.
  intros E x Hx. specialize (E x). rewrite public_pdf_fin in E. injection E as <-. rewrite wrap_in by exact Hx. reflexivity.
Qed.

Lemma wc_moments mu rho f n : wc_ok mu rho = true ->
  (forall x, public_pdf (wc_ok mu rho) (wc_pdf mu rho) x = Fin (f x)) ->
  trig_moment_of f (Z.of_nat n) (rho ^ n * cos (INR n * mu)) (rho ^ n * sin (INR n * mu)).
Proof.
  intros Hok E. rewrite Hok in E. apply wc_ok_spec in Hok. destruct Hok as [Hm H].
  pose proof (pub_pdf_on _ _ E) as E'. destruct (wcm_n rho n H) as [A B].
  destruct (moment_shift (wc_pdf 0 rho) f mu n (rho ^ n) 0 Hm) as [K1 K2]; try assumption.
  - intros. apply wc_pdf_cont. exact H.
  - apply wc_pdf_per.
  - intros x Hx. rewrite E' by exact Hx. apply wc_pdf_shift.
  - unfold trig_moment_of. rewrite <- INR_IZR_INZ. split.
    + replace (rho ^ n * cos (INR n * mu)) with (rho ^ n * cos (INR n * mu) - 0 * sin (INR n * mu)) by ring. exact K1.
    + replace (rho ^ n * sin (INR n * mu)) with (rho ^ n * sin (INR n * mu) + 0 * cos (INR n * mu)) by ring. exact K2.
Qed.

(** ** cardioid *)
Lemma int_cos_cos (n : nat) : (1 <= n)%nat ->
  integral (fun t => cos (INR n * t) * cos t) 0 (2 * PI) (if Nat.eqb n 1 then PI else 0).
Proof.
  intros Hn. pose proof PI_pos. assert (L : 0 <= 2 * PI) by lra.
  pose proof (int_cos_n (S n) ltac:(lia)) as A.
  assert (B : integral (fun t => cos (INR (n - 1) * t)) 0 (2 * PI) (if Nat.eqb n 1 then 2 * PI else 0)).
  { destruct (Nat.eqb_spec n 1) as [->|N].
    - apply (integral_ext (fun _ => 1)); [exact L|intros t _; cbn [Nat.sub INR]; rewrite Rmult_0_l, cos_0; reflexivity|].
      apply (integral_val _ _ _ (1 * (2 * PI - 0))); [ring|apply integral_const].
    - apply int_cos_n. lia. }
  pose proof (integral_scal _ _ _ (1 / 2) _ L (integral_plus _ _ _ _ _ _ L A B)) as K.
  replace (if Nat.eqb n 1 then PI else 0) with (1 / 2 * (0 + if Nat.eqb n 1 then 2 * PI else 0)) by (destruct (Nat.eqb n 1); field).
  revert K. apply integral_ext; [exact L|]. intros t _. cbv beta.
  rewrite S_INR, minus_INR by lia. cbn [INR].
  replace ((INR n + 1) * t) with (INR n * t + t) by ring. replace ((INR n - 1) * t) with (INR n * t - t) by ring.
  rewrite cos_plus, cos_minus. field.
Qed.
Lemma int_sin_cos (n : nat) : (1 <= n)%nat -> integral (fun t => sin (INR n * t) * cos t) 0 (2 * PI) 0.
Proof.
  intros Hn. pose proof PI_pos. assert (L : 0 <= 2 * PI) by lra.
  pose proof (integral_scal _ _ _ (1 / 2) _ L (integral_plus _ _ _ _ _ _ L (int_sin_n (S n)) (int_sin_n (n - 1)))) as K.
  apply (integral_val _ _ _ (1 / 2 * (0 + 0))); [field|].
  revert K. apply integral_ext; [exact L|]. intros t _. cbv beta.
  rewrite S_INR, minus_INR by lia. cbn [INR].
  replace ((INR n + 1) * t) with (INR n * t + t) by ring. replace ((INR n - 1) * t) with (INR n * t - t) by ring.
  rewrite sin_plus, sin_minus. field.
Qed.
Lemma car_moments mu rho f (n : nat) : (1 <= n)%nat -> car_ok mu rho = true ->
  (forall x, public_pdf (car_ok mu rho) (car_pdf mu rho) x = Fin (f x)) ->
  let r := if Nat.eqb n 1 then rho else 0 in
  trig_moment_of f (Z.of_nat n) (r * cos (INR n * mu)) (r * sin (INR n * mu)).
Proof.
  intros Hn Hok E r. rewrite Hok in E. apply car_ok_spec in Hok. destruct Hok as [Hm H].
  pose proof (pub_pdf_on _ _ E) as E'. pose proof PI_pos. assert (L : 0 <= 2 * PI) by lra.
  destruct (moment_shift (car_pdf 0 rho) f mu n r 0 Hm) as [K1 K2].
  - intros. apply car_pdf_cont.
  - intros x. unfold car_pdf. replace (x + 2 * PI - 0) with (x - 0 + 2 * PI * IZR 1) by ring. rewrite cos_turns. reflexivity.
  - intros x Hx. rewrite E' by exact Hx. unfold car_pdf. rewrite Rminus_0_r. reflexivity.
  - pose proof (integral_scal _ _ _ (1 / 2 / PI) _ L (int_cos_n n Hn)) as A.
    pose proof (integral_lin _ _ _ _ (rho / PI) _ _ A (int_cos_cos n Hn)) as K.
    replace r with (1 / 2 / PI * 0 + rho / PI * (if Nat.eqb n 1 then PI else 0)) by (unfold r; destruct (Nat.eqb n 1); field; lra).
    revert K. apply integral_ext; [exact L|]. intros t _. unfold car_pdf. rewrite Rminus_0_r. field. lra.
  - pose proof (integral_scal _ _ _ (1 / 2 / PI) _ L (int_sin_n n)) as A.
    pose proof (integral_lin _ _ _ _ (rho / PI) _ _ A (int_sin_cos n Hn)) as K.
    apply (integral_val _ _ _ (1 / 2 / PI * 0 + rho / PI * 0)); [field; lra|].
    revert K. apply integral_ext; [exact L|]. intros t _. unfold car_pdf. rewrite Rminus_0_r. field. lra.
  - unfold trig_moment_of. rewrite <- INR_IZR_INZ. split.
    + replace (r * cos (INR n * mu)) with (r * cos (INR n * mu) - 0 * sin (INR n * mu)) by ring. exact K1.
    + replace (r * sin (INR n * mu)) with (r * sin (INR n * mu) + 0 * cos (INR n * mu)) by ring. exact K2.
Qed.

(** ** triangular *)
Lemma tri_moment rho f : tri_ok rho = true ->
  (forall x, public_pdf (tri_ok rho) (tri_pdf rho) x = Fin (f x)) -> trig_moment_of f 1 rho 0.
Proof.
  intros Hok E. rewrite Hok in E. pose proof (pub_pdf_on _ _ E) as E'. pose proof PI_pos as Hp.
  set (a := (4 + PI ^ 2 * rho) / 8 / PI). set (b := - (2 * PI * rho) / 8 / PI).
  set (a' := (4 - 3 * PI ^ 2 * rho) / 8 / PI). set (b' := (2 * PI * rho) / 8 / PI).
  assert (P1 : forall x, 0 <= x <= PI -> f x = a + b * x).
  { intros x Hx. rewrite E' by lra. unfold tri_pdf. rewrite Rabs_right by lra. unfold a, b. field. lra. }
  assert (P2 : forall x, PI <= x <= 2 * PI -> f x = a' + b' * x).
  { intros x Hx. rewrite E' by lra. unfold tri_pdf. rewrite Rabs_left1 by lra. unfold a', b'. field. lra. }
  assert (L1 : 0 <= PI) by lra. assert (L2 : PI <= 2 * PI) by lra.
  assert (IC : forall a b u v, u <= v -> integral (fun x => cos x * (a + b * x)) u v
     (a * sin v + b * (v * sin v + cos v) - (a * sin u + b * (u * sin u + cos u)))).
  { clear. intros a b u v H. apply (ftc _ (fun x => a * sin x + b * (x * sin x + cos x))); [exact H| |].
    - intros x _. eapply dlim_cont. apply dlim_mult; [apply derivable_pt_lim_cos|apply dlim_plus; [apply dlim_const|apply dlim_mulc]].
    - intros x _. eapply dlim_eq; [|apply dlim_plus; [apply dlim_scal; apply derivable_pt_lim_sin|apply dlim_scal; apply dlim_plus;
        [apply dlim_mult; [apply dlim_id|apply derivable_pt_lim_sin]|apply derivable_pt_lim_cos]]]. cbv beta. ring. }
  assert (IS : forall a b u v, u <= v -> integral (fun x => sin x * (a + b * x)) u v
     (- a * cos v + b * (sin v - v * cos v) - (- a * cos u + b * (sin u - u * cos u)))).
  { clear. intros a b u v H. apply (ftc _ (fun x => - a * cos x + b * (sin x - x * cos x))); [exact H| |].
    - intros x _. eapply dlim_cont. apply dlim_mult; [apply derivable_pt_lim_sin|apply dlim_plus; [apply dlim_const|apply dlim_mulc]].
    - intros x _. eapply dlim_eq; [|apply dlim_plus; [apply dlim_scal; apply derivable_pt_lim_cos|apply dlim_scal; apply dlim_minus;
        [apply derivable_pt_lim_sin|apply dlim_mult; [apply dlim_id|apply derivable_pt_lim_cos]]]]. cbv beta. ring. }
  split.
  - assert (C1 : forall x, 0 <= x <= PI -> cos x * (a + b * x) = cos (IZR 1 * x) * f x).
    { intros x Hx. rewrite P1, Rmult_1_l by lra. reflexivity. }
    assert (C2 : forall x, PI <= x <= 2 * PI -> cos x * (a' + b' * x) = cos (IZR 1 * x) * f x).
    { intros x Hx. rewrite P2, Rmult_1_l by lra. reflexivity. }
    pose proof (integral_ext _ _ 0 PI _ L1 C1 (IC a b 0 PI L1)) as K1.
    pose proof (integral_ext _ _ PI (2 * PI) _ L2 C2 (IC a' b' PI (2 * PI) L2)) as K2.
    pose proof (integral_split _ _ _ _ _ _ K1 K2) as K.
    refine (integral_val _ _ _ _ _ _ K).
    rewrite sin_PI, cos_PI, sin_0, cos_0, sin_2PI, cos_2PI. unfold a, b, a', b'. field. lra.
  - assert (C1 : forall x, 0 <= x <= PI -> sin x * (a + b * x) = sin (IZR 1 * x) * f x).
    { intros x Hx. rewrite P1, Rmult_1_l by lra. reflexivity. }
    assert (C2 : forall x, PI <= x <= 2 * PI -> sin x * (a' + b' * x) = sin (IZR 1 * x) * f x).
    { intros x Hx. rewrite P2, Rmult_1_l by lra. reflexivity. }
    pose proof (integral_ext _ _ 0 PI _ L1 C1 (IS a b 0 PI L1)) as K1.
    pose proof (integral_ext _ _ PI (2 * PI) _ L2 C2 (IS a' b' PI (2 * PI) L2)) as K2.
    pose proof (integral_split _ _ _ _ _ _ K1 K2) as K.
    refine (integral_val _ _ _ _ _ _ K).
    rewrite sin_PI, cos_PI, sin_0, cos_0, sin_2PI, cos_2PI. unfold a, b, a', b'. field. lra.
Qed.

(** ** The maximum likelihood estimate of triangular *)
Lemma tri_c_bound x : Rabs (tri_c x) <= PI ^ 2.
Proof.
  pose proof PI2_pos as Hp. pose proof PI_pos. unfold tri_c. pose proof (pymod_range x (2 * PI) Hp) as R.
  assert (0 <= Rabs (PI - pymod x (2 * PI)) <= PI).
  { split; [apply Rabs_pos|]. apply Rabs_le. lra. }
  apply Rabs_le. nra.
Qed.
Lemma tri_hi_range : 0 < tri_hi /\ PI ^ 2 * tri_hi < 4.
Proof.
  pose proof PI_pos. pose proof PI_4. unfold tri_hi.
  assert (T12 : 0 < / 10 ^ 12 < / 10) by (split; [apply Rinv_0_lt_compat|apply Rinv_lt_contravar]; lra).
  assert (Q : 0 < PI ^ 2 <= 16) by (split; [apply pow_lt; lra|nra]).
  assert (4 / 16 <= 4 / PI ^ 2).
  { unfold Rdiv. apply Rmult_le_compat_l; [lra|]. apply Rinv_le_contravar; lra. }
  split; [lra|]. replace (PI ^ 2 * (4 / PI ^ 2 - / 10 ^ 12)) with (4 - PI ^ 2 * / 10 ^ 12) by (field; lra).
  assert (0 < PI ^ 2 * / 10 ^ 12) by (apply Rmult_lt_0_compat; lra). lra.
Qed.
Lemma tri_fac_pos r x : 0 <= r <= tri_hi -> 0 < 4 + r * tri_c x.
Proof.
  intros H. pose proof tri_hi_range as [T1 T2]. pose proof (tri_c_bound x) as B. apply abs_le_inv in B.
  assert (Q : 0 < PI ^ 2) by (apply pow_lt; apply PI_RGT_0).
  assert (r * PI ^ 2 <= tri_hi * PI ^ 2) by (apply Rmult_le_compat_r; lra).
  assert (- (r * PI ^ 2) <= r * tri_c x).
  { replace (- (r * PI ^ 2)) with (r * - PI ^ 2) by ring. apply Rmult_le_compat_l; lra. }
  lra.
Qed.
Definition tri_ll (s : list (R * R)) (r : R) : R := Rsum (map (fun p => snd p * ln (4 + r * tri_c (fst p))) s).
Lemma tri_ll_d s r : 0 <= r <= tri_hi -> derivable_pt_lim (tri_ll s) r (tri_score s r).
Proof.
  intros H. unfold tri_ll, tri_score. apply (dlim_Rsum (fun p r => snd p * ln (4 + r * tri_c (fst p)))).
  intros p _. eapply dlim_eq; [|apply dlim_scal; apply dlim_ln; [apply tri_fac_pos; exact H|apply dlim_plus; [apply dlim_const|
    apply dlim_mult; [apply dlim_id|apply dlim_const]]]].
  cbv beta. pose proof (tri_fac_pos r (fst p) H). field. lra.
Qed.
Lemma Rsum_le_map {A} (f g : A -> R) l : (forall a, In a l -> f a <= g a) -> Rsum (map f l) <= Rsum (map g l).
Proof.
  induction l as [|a l IH]; intros H; [cbn; lra|]. cbn [map].
  change (f a + Rsum (map f l) <= g a + Rsum (map g l)).
  pose proof (H a (or_introl eq_refl)). pose proof (IH (fun b Hb => H b (or_intror Hb))). lra.
Qed.
Lemma tri_score_mono s r r' : (forall p, In p s -> 0 <= snd p) -> 0 <= r -> r <= r' -> r' <= tri_hi ->
  tri_score s r' <= tri_score s r.
Proof.
  intros W H0 H1 H2. unfold tri_score. apply Rsum_le_map. intros p Hp. specialize (W p Hp).
  apply Rmult_le_compat_l; [exact W|]. set (c := tri_c (fst p)).
  pose proof (tri_fac_pos r (fst p) ltac:(lra)) as P1. pose proof (tri_fac_pos r' (fst p) ltac:(lra)) as P2. fold c in P1, P2.
  assert (c / (4 + r * c) - c / (4 + r' * c) = c ^ 2 * (r' - r) / ((4 + r * c) * (4 + r' * c))) as E by (field; lra).
  assert (0 <= c ^ 2 * (r' - r) / ((4 + r * c) * (4 + r' * c))).
  { apply Rmult_le_pos; [apply Rmult_le_pos; [apply pow2_ge_0|lra]|]. apply Rlt_le, Rinv_0_lt_compat.
    apply Rmult_lt_0_compat; assumption. }
  lra.
Qed.
Lemma tri_ll_max s z : (forall p, In p s -> 0 <= snd p) -> 0 <= z <= tri_hi ->
  (0 < z -> 0 <= tri_score s z) -> (z < tri_hi -> tri_score s z <= 0) ->
  forall r, 0 <= r <= tri_hi -> tri_ll s r <= tri_ll s z.
Proof.
  intros W Hz A B r Hr. destruct (Rle_dec r z) as [L|L].
  - destruct (Req_dec r z) as [->|N]; [lra|]. assert (Az : 0 <= tri_score s z) by (apply A; lra).
    apply (mono_of_dlim (tri_ll s) (tri_score s) r z); [| |lra|lra|lra].
    + intros x Hx. apply tri_ll_d. lra.
    + intros x Hx. pose proof (tri_score_mono s x z W ltac:(lra) ltac:(lra) ltac:(lra)). lra.
  - assert (Bz : tri_score s z <= 0) by (apply B; lra).
    assert (K : - tri_ll s z <= - tri_ll s r); [|lra].
    apply (mono_of_dlim (fun x => - tri_ll s x) (fun x => - tri_score s x) z r); [| |lra|lra|lra].
    + intros x Hx. apply dlim_opp. apply tri_ll_d. lra.
    + intros x Hx. pose proof (tri_score_mono s z x W ltac:(lra) ltac:(lra) ltac:(lra)). lra.
Qed.

(** The log-likelihood in terms of the density. *)
Lemma tri_ll_pdf s r : 0 <= r <= tri_hi ->
  Rsum (map (fun p => snd p * ln (tri_pdf r (pymod (fst p) (2 * PI)))) s) = tri_ll s r - ln (8 * PI) * Rsum (map snd s).
Proof.
  intros H. pose proof PI_pos. unfold tri_ll.
  rewrite (Rsum_ext_map _ (fun p => snd p * ln (4 + r * tri_c (fst p)) + - ln (8 * PI) * snd p)).
  - rewrite Rsum_plus_map, Rsum_scal_map. ring.
  - intros p _. pose proof (tri_fac_pos r (fst p) H) as P.
    assert (E : tri_pdf r (pymod (fst p) (2 * PI)) = (4 + r * tri_c (fst p)) * / (8 * PI)).
    { unfold tri_pdf, tri_c. field. lra. }
    rewrite E, (ln_mult (4 + r * tri_c (fst p))), ln_Rinv by (lra || exact P || (apply Rinv_0_lt_compat; lra)). ring.
Qed.

Lemma existsb_neg s : existsb (fun p : R * R => Rltb (snd p) 0) s = false -> forall p, In p s -> 0 <= snd p.
Proof.
  intros E p Hp. destruct (Rle_dec 0 (snd p)) as [L|L]; [exact L|exfalso].
  assert (existsb (fun p : R * R => Rltb (snd p) 0) s = true); [|congruence].
  apply existsb_exists. exists p. split; [exact Hp|]. apply Rltb_true. lra.
Qed.

Lemma tri_fit_max root s est :
  (0 < tri_score s 0 -> tri_score s tri_hi < 0 ->
   0 <= root (tri_score s) 0 tri_hi <= tri_hi /\ tri_score s (root (tri_score s) 0 tri_hi) = 0) ->
  tri_fit_mle root s = Ok est ->
  0 <= est <= tri_hi /\
  forall r, 0 <= r <= tri_hi ->
    Rsum (map (fun p => snd p * ln (tri_pdf r (pymod (fst p) (2 * PI)))) s) <=
    Rsum (map (fun p => snd p * ln (tri_pdf est (pymod (fst p) (2 * PI)))) s).
Proof.
  intros HR H. pose proof tri_hi_range as [T1 T2]. unfold tri_fit_mle in H.
  destruct (existsb (fun p => Rltb (snd p) 0) s) eqn:EN; [discriminate|]. pose proof (existsb_neg _ EN) as EN2. clear EN. rename EN2 into EN.
  destruct (Rleb_spec (Rsum (map snd s)) 0); [discriminate|].
  assert (G : 0 <= est <= tri_hi /\ (0 < est -> 0 <= tri_score s est) /\ (est < tri_hi -> tri_score s est <= 0)).
  { destruct (Rleb_spec (tri_score s 0) 0) as [L|L].
    - injection H as <-. repeat split; lra.
    - destruct (Rleb_spec 0 (tri_score s tri_hi)) as [L2|L2].
      + injection H as <-. repeat split; lra.
      + injection H as <-. destruct HR as [Z1 Z2]; repeat split; lra. }
  destruct G as [G1 [G2 G3]]. split; [exact G1|]. intros r Hr. rewrite !tri_ll_pdf by assumption.
  pose proof (tri_ll_max s est EN G1 G2 G3 r Hr). lra.
Qed.
