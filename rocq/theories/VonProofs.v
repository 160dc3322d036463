(** Bessel functions of integer order, from their integrals. *)
From Verif Require Import Prelude NpModel NpProofs CircleSpec IntSpec IntProofs DistModel DistSpec DistProofs Dist2Proofs Dist4Proofs Dist5Proofs
  Dist7Proofs Dist8Proofs KjProofs Kj2Proofs VonModel VonSpec.

Definition vE (k t : R) : R := exp (k * cos t).
Lemma vE_pos k t : 0 < vE k t.
Proof. apply exp_pos. Qed.
Lemma vE_d k t : derivable_pt_lim (vE k) t (- k * sin t * vE k t).
Proof.
  unfold vE. eapply dlim_eq; [|apply dlim_exp; apply dlim_scal; apply (dlim_cos (fun y => y)); apply dlim_id].
  cbv beta. fold (vE k t). ring.
Qed.
Lemma vE_cont k t : continuity_pt (vE k) t.
Proof. eapply dlim_cont. apply vE_d. Qed.
Lemma vE_per k t : vE k (t + 2 * PI) = vE k t.
Proof. unfold vE. f_equal. f_equal. rewrite cos_plus, cos_2PI, sin_2PI. ring. Qed.
Lemma cosn_d (n : nat) t : derivable_pt_lim (fun t => cos (INR n * t)) t (- INR n * sin (INR n * t)).
Proof. eapply dlim_eq; [|apply dlim_cos; apply dlim_mulc]. ring. Qed.
Lemma sinn_d (n : nat) t : derivable_pt_lim (fun t => sin (INR n * t)) t (INR n * cos (INR n * t)).
Proof. eapply dlim_eq; [|apply dlim_sin; apply dlim_mulc]. ring. Qed.

Lemma iv_exists : exists iv, is_iv iv.
Proof.
  assert (L : 0 <= 2 * PI) by (pose proof PI_RGT_0; lra).
  assert (C : forall n k t, 0 <= t <= 2 * PI -> continuity_pt (fun t => cos (INR n * t) * exp (k * cos t)) t).
  { intros n k t _. apply cont_mult; [apply cos_n_cont|apply (vE_cont k t)]. }
  exists (fun n k => RiemannInt (continuity_implies_RiemannInt L (C n k)) / (2 * PI)).
  intros n k. exists (continuity_implies_RiemannInt L (C n k)). field. pose proof PI_RGT_0. lra.
Qed.

(** An antiderivative that returns after a turn: the integral is 0. *)
Lemma closed_integral f F : (forall t, continuity_pt f t) -> (forall t, derivable_pt_lim F t (f t)) -> F (2 * PI) = F 0 ->
  integral f 0 (2 * PI) 0.
Proof.
  intros C D E. apply (integral_val _ _ _ (F (2 * PI) - F 0)); [lra|]. apply ftc; [pose proof PI_RGT_0; lra|auto|auto].
Qed.

Lemma i0_int iv k : is_iv iv -> integral (vE k) 0 (2 * PI) (2 * PI * iv 0%nat k).
Proof.
  intros H. pose proof PI_RGT_0. refine (integral_ext _ _ _ _ _ _ _ (H 0%nat k)); [lra|]. intros t _. simpl. rewrite Rmult_0_l, cos_0. unfold vE. ring.
Qed.
Lemma i1_int iv k : is_iv iv -> integral (fun t => cos t * vE k t) 0 (2 * PI) (2 * PI * iv 1%nat k).
Proof.
  intros H. pose proof PI_RGT_0. refine (integral_ext _ _ _ _ _ _ _ (H 1%nat k)); [lra|]. intros t _. simpl. rewrite Rmult_1_l. reflexivity.
Qed.
Lemma i0_ge1 iv k : is_iv iv -> 1 <= iv 0%nat k.
Proof.
  intros H. pose proof PI_RGT_0 as P. pose proof (i0_int iv k H) as I.
  assert (J : integral (fun t => 1 + k * cos t) 0 (2 * PI) (2 * PI)).
  { apply (integral_val _ _ _ ((2 * PI + k * sin (2 * PI)) - (0 + k * sin 0))); [rewrite sin_2PI, sin_0; ring|].
    apply (ftc _ (fun t => t + k * sin t)); [lra| |].
    - intros t _. eapply dlim_cont. apply dlim_plus; [apply dlim_const|apply dlim_scal; apply (dlim_cos (fun y => y)); apply dlim_id].
    - intros t _. eapply dlim_eq; [|apply dlim_plus; [apply dlim_id|apply dlim_scal; apply (dlim_sin (fun y => y)); apply dlim_id]]. ring. }
  assert (B : 2 * PI <= 2 * PI * iv 0%nat k).
  { apply (integral_le (fun t => 1 + k * cos t) (vE k) 0 (2 * PI)); [lra| |exact J|exact I]. intros t _. unfold vE. 
    destruct (Req_dec (k * cos t) 0) as [->|N]; [rewrite exp_0; lra|left; apply exp_ineq1; exact N]. }
  apply Rmult_le_reg_l with (2 * PI); lra.
Qed.
Lemma i0_pos iv k : is_iv iv -> 0 < iv 0%nat k.
Proof. intros H. pose proof (i0_ge1 iv k H). lra. Qed.
Lemma i0_le iv k : is_iv iv -> iv 0%nat k <= exp (Rabs k).
Proof.
  intros H. pose proof PI_RGT_0 as P. pose proof (i0_int iv k H) as I. pose proof (integral_const 0 (2 * PI) (exp (Rabs k))) as J.
  assert (B : 2 * PI * iv 0%nat k <= exp (Rabs k) * (2 * PI - 0)).
  { apply (integral_le (vE k) (fun _ => exp (Rabs k)) 0 (2 * PI)); [lra| |exact I|exact J]. intros t _. unfold vE.
    assert (L : k * cos t <= Rabs k).
    { pose proof (COS_bound t). pose proof (Rle_abs (k * cos t)). rewrite Rabs_mult in H1.
      assert (Rabs (cos t) <= 1) by (apply Rabs_le; lra). pose proof (Rabs_pos k). nra. }
    destruct L as [L|L]; [left; apply exp_increasing; exact L|rewrite L; right; reflexivity]. }
  apply Rmult_le_reg_l with (2 * PI); lra.
Qed.
Lemma iv_abs iv n k : is_iv iv -> Rabs (iv n k) <= iv 0%nat k.
Proof.
  intros H. pose proof PI_RGT_0 as P.
  assert (B : Rabs (2 * PI * iv n k) <= 2 * PI * iv 0%nat k).
  { apply (integral_abs (fun t => cos (INR n * t) * exp (k * cos t)) (vE k) 0 (2 * PI)); [lra| |apply H|apply i0_int; exact H].
    intros t _. rewrite Rabs_mult, (Rabs_right (exp _)) by (left; apply exp_pos). pose proof (COS_bound (INR n * t)).
    assert (Rabs (cos (INR n * t)) <= 1) by (apply Rabs_le; lra). pose proof (exp_pos (k * cos t)). unfold vE. nra. }
  rewrite Rabs_mult, Rabs_right in B by lra. apply Rmult_le_reg_l with (2 * PI); lra.
Qed.
Lemma iv_rec iv n k : is_iv iv -> k * iv (S (S n)) k = k * iv n k - 2 * INR (S n) * iv (S n) k.
Proof.
  intros H. pose proof PI_RGT_0 as P. assert (L : 0 <= 2 * PI) by lra.
  pose proof (integral_scal _ _ _ (k / 2) _ L (H n k)) as I0.
  pose proof (integral_lin _ _ _ _ (- (k / 2)) _ _ I0 (H (S (S n)) k)) as I1.
  pose proof (integral_lin _ _ _ _ (- INR (S n)) _ _ I1 (H (S n) k)) as I2. cbv beta in I2.
  assert (J : integral (fun x => k / 2 * (cos (INR n * x) * exp (k * cos x)) + - (k / 2) * (cos (INR (S (S n)) * x) * exp (k * cos x)) +
      - INR (S n) * (cos (INR (S n) * x) * exp (k * cos x))) 0 (2 * PI) 0).
  { apply (closed_integral _ (fun t => - (sin (INR (S n) * t) * vE k t))).
    - intros t. apply cont_plus; [apply cont_plus|]; (apply cont_mult; [apply cont_const|]; apply cont_mult; [apply cos_n_cont|apply (vE_cont k)]).
    - intros t. eapply dlim_eq; [|apply dlim_opp; apply dlim_mult; [apply sinn_d|apply vE_d]].
      cbv beta. fold (vE k t).
      assert (E : sin t * sin (INR (S n) * t) = / 2 * (cos (INR n * t) - cos (INR (S (S n)) * t))).
      { rewrite !S_INR. replace (INR n * t) with ((INR n + 1) * t - t) by ring. replace ((INR n + 1 + 1) * t) with ((INR n + 1) * t + t) by ring.
        rewrite cos_minus, cos_plus. field. }
      transitivity (k * (sin t * sin (INR (S n) * t)) * vE k t - INR (S n) * cos (INR (S n) * t) * vE k t); [ring|].
      rewrite E. field.
    - replace (INR (S n) * (2 * PI)) with (INR (S n) * (0 + 2 * PI)) by ring. rewrite sin_per. rewrite !Rmult_0_r, sin_0. ring. }
  pose proof (integral_unique _ _ _ _ _ I2 J) as E.
  apply Rmult_eq_reg_l with PI; lra.
Qed.

(** ** The integrals of sin^(2n) exp(k cos) *)
Definition sE (n : nat) (k t : R) : R := sin t ^ (2 * n) * vE k t.
Definition scE (n : nat) (k t : R) : R := sin t ^ (2 * n) * (cos t * vE k t).
Lemma dlim_pow n f x l : derivable_pt_lim f x l -> derivable_pt_lim (fun y => f y ^ S n) x (INR (S n) * f x ^ n * l).
Proof. intros H. apply (dlim_comp (fun y => y ^ S n) f); [exact H|]. apply (derivable_pt_lim_pow (f x) (S n)). Qed.
Lemma sinpow_cont n t : continuity_pt (fun t => sin t ^ n) t.
Proof.
  destruct n as [|n]; [apply (cont_ext (fun _ => 1)); [reflexivity|apply cont_const]|].
  eapply dlim_cont. apply dlim_pow. apply (dlim_sin (fun y => y)). apply dlim_id.
Qed.
Lemma sE_cont n k t : continuity_pt (sE n k) t.
Proof. apply cont_mult; [apply sinpow_cont|apply vE_cont]. Qed.
Lemma cos_cont t : continuity_pt cos t.
Proof. apply continuity_cos. Qed.
Lemma scE_cont n k t : continuity_pt (scE n k) t.
Proof. apply cont_mult; [apply sinpow_cont|]. apply (cont_mult cos (vE k)); [apply cos_cont|apply vE_cont]. Qed.
Lemma sE_exists n k : exists a b, integral (sE n k) 0 (2 * PI) a /\ integral (scE n k) 0 (2 * PI) b.
Proof.
  assert (L : 0 <= 2 * PI) by (pose proof PI_RGT_0; lra).
  destruct (continuous_integral (sE n k) 0 (2 * PI) L) as [a A]; [intros; apply sE_cont|].
  destruct (continuous_integral (scE n k) 0 (2 * PI) L) as [b B]; [intros; apply scE_cont|]. eauto.
Qed.
Lemma sin2_1 t : cos t * cos t = 1 - sin t * sin t.
Proof. pose proof (sin2_cos2 t) as E. unfold Rsqr in E. lra. Qed.
Lemma sE_rel1 n k a1 b : integral (sE (S n) k) 0 (2 * PI) a1 -> integral (scE n k) 0 (2 * PI) b -> k * a1 = INR (2 * n + 1) * b.
Proof.
  intros A B. assert (L : 0 <= 2 * PI) by (pose proof PI_RGT_0; lra).
  pose proof (integral_scal _ _ _ (- k) _ L A) as I0. pose proof (integral_lin _ _ _ _ (INR (2 * n + 1)) _ _ I0 B) as I1. cbv beta in I1.
  assert (J : integral (fun x => - k * sE (S n) k x + INR (2 * n + 1) * scE n k x) 0 (2 * PI) 0).
  { apply (closed_integral _ (fun t => sin t ^ (S (2 * n)) * vE k t)).
    - intros t. apply cont_plus; (apply cont_mult; [apply cont_const|]); [apply sE_cont|apply scE_cont].
    - intros t. eapply dlim_eq; [|apply dlim_mult; [apply dlim_pow; apply (dlim_sin (fun y => y)); apply dlim_id|apply vE_d]].
      cbv beta. unfold sE, scE. replace (2 * n + 1)%nat with (S (2 * n)) by lia. replace (2 * S n)%nat with (S (S (2 * n))) by lia.
      cbn [pow]. ring.
    - rewrite sin_2PI, sin_0. cbn [pow]. ring. }
  pose proof (integral_unique _ _ _ _ _ I1 J). lra.
Qed.
Lemma sE_rel2 n k a0 a1 b1 : integral (sE n k) 0 (2 * PI) a0 -> integral (sE (S n) k) 0 (2 * PI) a1 -> integral (scE (S n) k) 0 (2 * PI) b1 ->
  k * b1 = INR (2 * n + 1) * a0 - INR (2 * n + 2) * a1.
Proof.
  intros A A1 B. assert (L : 0 <= 2 * PI) by (pose proof PI_RGT_0; lra).
  pose proof (integral_scal _ _ _ (- k) _ L B) as I0. pose proof (integral_lin _ _ _ _ (INR (2 * n + 1)) _ _ I0 A) as I1.
  pose proof (integral_lin _ _ _ _ (- INR (2 * n + 2)) _ _ I1 A1) as I2. cbv beta in I2.
  assert (J : integral (fun x => - k * scE (S n) k x + INR (2 * n + 1) * sE n k x + - INR (2 * n + 2) * sE (S n) k x) 0 (2 * PI) 0).
  { apply (closed_integral _ (fun t => sin t ^ (S (2 * n)) * (cos t * vE k t))).
    - intros t. apply cont_plus; [apply cont_plus|]; (apply cont_mult; [apply cont_const|]); [apply scE_cont|apply sE_cont|apply sE_cont].
    - intros t. eapply dlim_eq; [|apply dlim_mult; [apply dlim_pow; apply (dlim_sin (fun y => y)); apply dlim_id|
        apply dlim_mult; [apply (dlim_cos (fun y => y)); apply dlim_id|apply vE_d]]].
      cbv beta. unfold sE, scE. replace (2 * n + 2)%nat with (S (S (2 * n))) by lia. replace (2 * n + 1)%nat with (S (2 * n)) by lia.
      replace (2 * S n)%nat with (S (S (2 * n))) by lia. rewrite (S_INR (S (2 * n))).
      cbn [pow].
      replace (INR (S (2 * n)) * sin t ^ (2 * n) * (cos t * 1) * (cos t * vE k t) +
        sin t * sin t ^ (2 * n) * (- sin t * 1 * vE k t + cos t * (- k * sin t * vE k t)))
      with (INR (S (2 * n)) * sin t ^ (2 * n) * (cos t * cos t) * vE k t -
        sin t * sin t ^ (2 * n) * (sin t * vE k t + k * cos t * sin t * vE k t)) by ring.
      rewrite sin2_1. ring.
    - rewrite sin_2PI, sin_0. cbn [pow]. ring. }
  pose proof (integral_unique _ _ _ _ _ I2 J). lra.
Qed.
Lemma sE_pos n k a : integral (sE n k) 0 (2 * PI) a -> 0 < a.
Proof.
  intros A. pose proof PI_RGT_0 as P. assert (N : forall t, 0 <= sE n k t).
  { intros t. unfold sE. apply Rmult_le_pos; [|left; apply vE_pos]. rewrite pow_mult. apply pow_le. apply pow2_ge_0. }
  assert (H0 : 0 <= a).
  { apply (integral_le (fun _ => 0) (sE n k) 0 (2 * PI)); [lra|intros; apply N| |exact A].
    apply (integral_val _ _ _ (0 * (2 * PI - 0))); [ring|apply integral_const]. }
  destruct H0 as [|E]; [assumption|]. exfalso. subst a.
  pose proof (zero_integral (sE n k) 0 (2 * PI) ltac:(lra) (fun x _ => sE_cont n k x) (fun x _ => N x) A (PI / 2) ltac:(lra)) as Z.
  unfold sE in Z. rewrite sin_PI2, pow1, Rmult_1_l in Z. pose proof (vE_pos k (PI / 2)). lra.
Qed.

Fixpoint dfact (n : nat) : R := match n with O => 1 | S m => INR (2 * m + 1) * dfact m end.
Lemma dfact_pos n : 0 < dfact n.
Proof. induction n as [|n IH]; cbn [dfact]; [lra|]. apply Rmult_lt_0_compat; [apply lt_0_INR; lia|exact IH]. Qed.
(** Poisson's integral. *)
Lemma iv_poisson iv k : is_iv iv -> 0 < k -> forall n a, integral (sE n k) 0 (2 * PI) a -> 2 * PI * iv n k * dfact n = k ^ n * a.
Proof.
  intros H Hk. enough (G : forall n, (forall a, integral (sE n k) 0 (2 * PI) a -> 2 * PI * iv n k * dfact n = k ^ n * a) /\
    (forall a, integral (sE (S n) k) 0 (2 * PI) a -> 2 * PI * iv (S n) k * dfact (S n) = k ^ (S n) * a)) by (intros n; apply G).
  assert (L : 0 <= 2 * PI) by (pose proof PI_RGT_0; lra).
  induction n as [|n [IH0 IH1]].
  - split; intros a A.
    + cbn [dfact pow]. assert (E : a = 2 * PI * iv 0%nat k); [|lra].
      eapply integral_unique; [exact A|]. refine (integral_ext _ _ _ _ _ L _ (i0_int iv k H)). intros t _. unfold sE. cbn. ring.
    + destruct (sE_exists 0 k) as (a0 & b & A0 & B). pose proof (sE_rel1 0 k a b A B) as E. cbn [INR Nat.mul Nat.add] in E.
      assert (Eb : b = 2 * PI * iv 1%nat k).
      { eapply integral_unique; [exact B|]. refine (integral_ext _ _ _ _ _ L _ (i1_int iv k H)). intros t _. unfold scE. cbn. ring. }
      cbn [dfact pow INR Nat.mul Nat.add]. lra.
  - split; [exact IH1|]. intros a A.
    destruct (sE_exists n k) as (a0 & b0 & A0 & B0). destruct (sE_exists (S n) k) as (a1 & b1 & A1 & B1).
    specialize (IH0 a0 A0). specialize (IH1 a1 A1).
    pose proof (sE_rel1 (S n) k a b1 A B1) as R1. pose proof (sE_rel2 n k a0 a1 b1 A0 A1 B1) as R2.
    pose proof (iv_rec iv n k H) as R3.
    apply Rmult_eq_reg_l with k; [|lra].
    replace (k * (2 * PI * iv (S (S n)) k * dfact (S (S n)))) with (2 * PI * (k * iv (S (S n)) k) * dfact (S (S n))) by ring. rewrite R3.
    replace (k * (k ^ S (S n) * a)) with (k ^ S n * (k * (k * a))) by (cbn [pow]; ring). rewrite R1.
    replace (k ^ S n * (k * (INR (2 * S n + 1) * b1))) with (k ^ S n * INR (2 * S n + 1) * (k * b1)) by ring. rewrite R2.
    replace (dfact (S (S n))) with (INR (2 * S n + 1) * dfact (S n)) by reflexivity.
    replace (2 * PI * (k * iv n k - 2 * INR (S n) * iv (S n) k) * (INR (2 * S n + 1) * dfact (S n)))
      with (INR (2 * S n + 1) * (k * INR (2 * n + 1) * (2 * PI * iv n k * dfact n) - 2 * INR (S n) * (2 * PI * iv (S n) k * dfact (S n))))
      by (cbn [dfact]; ring).
    rewrite IH0, IH1. replace (INR (2 * n + 2)) with (2 * INR (S n)) by (replace (2 * n + 2)%nat with (2 * S n)%nat by lia; rewrite mult_INR; cbn [INR]; ring).
    cbn [pow]. ring.
Qed.
Lemma iv_pos iv n k : is_iv iv -> 0 < k -> 0 < iv n k.
Proof.
  intros H Hk. destruct (sE_exists n k) as (a & _ & A & _). pose proof (sE_pos n k a A) as P. pose proof (iv_poisson iv k H Hk n a A) as E.
  pose proof (dfact_pos n). pose proof (pow_lt k n Hk). pose proof PI_RGT_0.
  assert (0 < 2 * PI * iv n k * dfact n) by (rewrite E; apply Rmult_lt_0_compat; assumption).
  destruct (Rlt_dec 0 (iv n k)); [assumption|]. exfalso.
  assert (0 <= (- iv n k) * (2 * PI * dfact n)) by (apply Rmult_le_pos; [lra|apply Rmult_le_pos; lra]). nra.
Qed.
