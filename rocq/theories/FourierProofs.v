(** A continuous periodic function whose Fourier coefficients vanish is 0. *)
From Verif Require Import Prelude NpModel NpProofs CircleSpec IntSpec IntProofs DistModel DistSpec DistProofs Dist2Proofs Dist4Proofs Dist5Proofs
  Dist6Proofs Dist7Proofs KjProofs Von2Proofs Von3Proofs.

(** A trigonometric polynomial that peaks at x0. *)
Definition peak (x0 d x : R) : R := (1 - cos d) + (cos x0 * cos x + sin x0 * sin x).
Lemma peak_eq x0 d x : peak x0 d x = 1 - cos d + cos (x - x0).
Proof. unfold peak. rewrite cos_minus. ring. Qed.
Lemma peak_cont x0 d x : continuity_pt (peak x0 d) x.
Proof.
  eapply dlim_cont. unfold peak. apply dlim_plus; [apply dlim_const|]. apply dlim_plus; apply dlim_scal; [apply dlim_cos|apply dlim_sin]; apply dlim_id.
Qed.
Lemma cont_pow f n x : continuity_pt f x -> continuity_pt (fun t => f t ^ n) x.
Proof. intros C. induction n as [|n IH]; [apply (cont_const 1)|]. cbn [pow]. apply (cont_mult f (fun t => f t ^ n)); assumption. Qed.

Lemma peak_step h x0 d N : (forall x, continuity_pt h x) ->
  (forall n : Z, integral (fun t => cos (IZR n * t) * h t) 0 (2 * PI) 0 /\ integral (fun t => sin (IZR n * t) * h t) 0 (2 * PI) 0) ->
  forall n : Z, integral (fun t => cos (IZR n * t) * (h t * peak x0 d t ^ N)) 0 (2 * PI) 0 /\
                integral (fun t => sin (IZR n * t) * (h t * peak x0 d t ^ N)) 0 (2 * PI) 0.
Proof.
  intros C H. pose proof PI_RGT_0. assert (L : 0 <= 2 * PI) by lra.
  induction N as [|N IH]; intros n.
  - destruct (H n) as [A B]. split; [revert A|revert B]; apply integral_ext; try exact L; intros t _; cbn [pow]; ring.
  - destruct (IH n) as [A0 B0]. destruct (IH (n + 1)%Z) as [A1 B1]. destruct (IH (n - 1)%Z) as [A2 B2].
    assert (E1 : forall t, IZR (n + 1) * t = IZR n * t + t) by (intros; rewrite plus_IZR; ring).
    assert (E2 : forall t, IZR (n - 1) * t = IZR n * t - t) by (intros; rewrite minus_IZR; ring).
    split.
    + pose proof (integral_lin _ _ _ _ (cos x0 / 2) _ _ (integral_lin _ _ _ _ (cos x0 / 2) _ _ (integral_scal _ _ _ (1 - cos d) _ L A0) A1) A2) as K1.
      pose proof (integral_lin _ _ _ _ (- sin x0 / 2) _ _ (integral_lin _ _ _ _ (sin x0 / 2) _ _ K1 B1) B2) as K2.
      refine (integral_val _ _ _ _ _ _ (integral_ext _ _ _ _ _ L _ K2)); [ring|].
      intros t _. cbv beta. rewrite E1, E2, cos_plus, cos_minus, sin_plus, sin_minus. cbn [pow]. unfold peak. field.
    + pose proof (integral_lin _ _ _ _ (cos x0 / 2) _ _ (integral_lin _ _ _ _ (cos x0 / 2) _ _ (integral_scal _ _ _ (1 - cos d) _ L B0) B1) B2) as K1.
      pose proof (integral_lin _ _ _ _ (sin x0 / 2) _ _ (integral_lin _ _ _ _ (- sin x0 / 2) _ _ K1 A1) A2) as K2.
      refine (integral_val _ _ _ _ _ _ (integral_ext _ _ _ _ _ L _ K2)); [ring|].
      intros t _. cbv beta. rewrite E1, E2, cos_plus, cos_minus, sin_plus, sin_minus. cbn [pow]. unfold peak. field.
Qed.
Lemma bern_pow x n : 0 <= x -> 1 + INR n * x <= (1 + x) ^ n.
Proof. intros Hx. induction n as [|n IH]; [cbn; lra|]. rewrite S_INR. cbn [pow]. pose proof (pos_INR n). nra. Qed.

Lemma fourier_le h : (forall x, continuity_pt h x) -> (forall x (z : Z), h (x + 2 * PI * IZR z) = h x) ->
  (forall n : Z, integral (fun t => cos (IZR n * t) * h t) 0 (2 * PI) 0 /\ integral (fun t => sin (IZR n * t) * h t) 0 (2 * PI) 0) ->
  forall x, h x <= 0.
Proof.
  intros C P H x0. destruct (Rle_dec (h x0) 0) as [Q|Q]; [exact Q|]. exfalso. apply Rnot_le_lt in Q. pose proof PI_RGT_0 as HP.
  destruct (C x0 (h x0 / 2) ltac:(lra)) as (al & Hal & Hc). pose (d := Rmin (al / 2) (PI / 2)).
  assert (Hd : 0 < d) by (apply Rmin_pos; lra). assert (Hd1 : d <= al / 2) by apply Rmin_l. assert (Hd2 : d <= PI / 2) by apply Rmin_r.
  assert (Hh : forall t, Rabs (t - x0) <= d -> h x0 / 2 <= h t).
  { intros t Ht. destruct (Req_dec t x0) as [->|N]; [lra|]. specialize (Hc t). unfold dist in Hc. cbn in Hc. unfold R_dist in Hc.
    assert (B : Rabs (h t - h x0) < h x0 / 2) by (apply Hc; split; [split; [exact I|auto]|lra]). apply Rabs_def2 in B. lra. }
  destruct (continuity_ab_min h (x0 - PI) (x0 + PI) ltac:(lra) ltac:(intros; apply C)) as (mx & Hm & _).
  destruct (continuity_ab_maj h (x0 - PI) (x0 + PI) ltac:(lra) ltac:(intros; apply C)) as (my & Hn & _).
  set (M := Rabs (h mx) + Rabs (h my)). assert (HM : forall t, x0 - PI <= t <= x0 + PI -> - M <= h t <= M).
  { intros t Ht. pose proof (Hm t Ht). pose proof (Hn t Ht). unfold M. pose proof (Rle_abs (- h mx)) as B. rewrite Rabs_Ropp in B.
    pose proof (Rle_abs (h my)). pose proof (Rabs_pos (h mx)). pose proof (Rabs_pos (h my)). lra. }
  assert (M0 : 0 <= M) by (unfold M; pose proof (Rabs_pos (h mx)); pose proof (Rabs_pos (h my)); lra).
  set (eta := cos (d / 2) - cos d). assert (He : 0 < eta).
  { unfold eta. pose proof (cos_decreasing_1 (d / 2) d ltac:(lra) ltac:(lra) ltac:(lra) ltac:(lra) ltac:(lra)). lra. }
  assert (Cd : 0 <= cos d <= 1) by (pose proof (COS_bound d); split; [apply cos_ge_0; lra|lra]).
  assert (cos_abs : forall t, cos (t - x0) = cos (Rabs (t - x0))).
  { intros t. unfold Rabs. destruct (Rcase_abs (t - x0)); [rewrite cos_neg|]; reflexivity. }
  assert (B : forall N : nat, h x0 / 2 * (1 + INR N * eta) * d <= M * (2 * PI)).
  { intros N. set (g := fun t => h t * peak x0 d t ^ N).
    assert (Cg : forall x, continuity_pt g x) by (intros; apply cont_mult; [apply C|apply cont_pow, peak_cont]).
    assert (I0 : integral g (x0 - PI) (x0 + PI) 0).
    { replace (x0 + PI) with (x0 - PI + 2 * PI) by ring. apply int_turn; [exact Cg| |].
      - intros x z. unfold g. rewrite P. f_equal. f_equal. rewrite !peak_eq. replace (x + 2 * PI * IZR z - x0) with (x - x0 + 2 * PI * IZR z) by ring. rewrite cos_turns. reflexivity.
      - destruct (peak_step h x0 d N C H 0) as [A _]. revert A. apply integral_ext; [lra|]. intros t _. rewrite Rmult_0_l, cos_0. unfold g. ring. }
    destruct (continuous_integral g (x0 - PI) (x0 - d / 2) ltac:(lra) ltac:(intros; apply Cg)) as [v1 I1].
    destruct (continuous_integral g (x0 - d / 2) (x0 + d / 2) ltac:(lra) ltac:(intros; apply Cg)) as [v2 I2].
    destruct (continuous_integral g (x0 + d / 2) (x0 + PI) ltac:(lra) ltac:(intros; apply Cg)) as [v3 I3].
    pose proof (integral_unique _ _ _ _ _ I0 (integral_split _ _ _ _ _ _ (integral_split _ _ _ _ _ _ I1 I2) I3)) as E.
    assert (Out : forall t, x0 - PI <= t <= x0 + PI -> - M <= g t).
    { intros t Ht. unfold g. rewrite peak_eq, cos_abs. assert (Ta : 0 <= Rabs (t - x0) <= PI) by (split; [apply Rabs_pos|apply Rabs_le; lra]).
      destruct (Rle_dec (Rabs (t - x0)) d) as [In|Ou].
      - pose proof (Hh t In). assert (1 <= 1 - cos d + cos (Rabs (t - x0))).
        { pose proof (cos_decr_1 (Rabs (t - x0)) d ltac:(lra) ltac:(lra) ltac:(lra) ltac:(lra) In). lra. }
        pose proof (pow_le (1 - cos d + cos (Rabs (t - x0))) N ltac:(lra)). nra.
      - pose proof (HM t Ht). assert (Ab : Rabs (1 - cos d + cos (Rabs (t - x0))) <= 1).
        { pose proof (cos_decr_1 d (Rabs (t - x0)) ltac:(lra) ltac:(lra) ltac:(lra) ltac:(lra) ltac:(lra)). pose proof (COS_bound (Rabs (t - x0))). apply Rabs_le. lra. }
        assert (Pb : Rabs ((1 - cos d + cos (Rabs (t - x0))) ^ N) <= 1).
        { rewrite <- RPow_abs. apply Rle_trans with (1 ^ N); [apply pow_incr; split; [apply Rabs_pos|exact Ab]|rewrite pow1; lra]. }
        set (y := (1 - cos d + cos (Rabs (t - x0))) ^ N) in *. clearbody y. apply abs_le_inv in Pb.
        nra. }
    assert (Inn : forall t, x0 - d / 2 <= t <= x0 + d / 2 -> h x0 / 2 * (1 + INR N * eta) <= g t).
    { intros t Ht. unfold g. rewrite peak_eq, cos_abs. assert (Ta : Rabs (t - x0) <= d / 2) by (apply Rabs_le; lra). pose proof (Rabs_pos (t - x0)).
      pose proof (Hh t ltac:(lra)). pose proof (cos_decr_1 (Rabs (t - x0)) (d / 2) ltac:(lra) ltac:(lra) ltac:(lra) ltac:(lra) Ta).
      assert (Pw : (1 + eta) ^ N <= (1 - cos d + cos (Rabs (t - x0))) ^ N) by (apply pow_incr; unfold eta in *; lra).
      pose proof (bern_pow eta N ltac:(lra)). pose proof (pos_INR N). set (y := (1 - cos d + cos (Rabs (t - x0))) ^ N) in *. clearbody y.
      apply Rle_trans with (h x0 / 2 * y); [apply Rmult_le_compat_l; lra|]. apply Rmult_le_compat_r; nra. }
    pose proof (integral_le (fun _ => - M) g (x0 - PI) (x0 - d / 2) _ _ ltac:(lra) ltac:(intros; apply Out; lra) (integral_const _ _ _) I1) as L1.
    pose proof (integral_le (fun _ => - M) g (x0 + d / 2) (x0 + PI) _ _ ltac:(lra) ltac:(intros; apply Out; lra) (integral_const _ _ _) I3) as L3.
    pose proof (integral_le (fun _ => h x0 / 2 * (1 + INR N * eta)) g (x0 - d / 2) (x0 + d / 2) _ _ ltac:(lra) Inn (integral_const _ _ _) I2) as L2.
    replace (x0 + d / 2 - (x0 - d / 2)) with d in L2 by field. nra. }
  destruct (INR_unbounded (M * (2 * PI) / (h x0 / 2 * eta * d))) as [N HN].
  specialize (B N). assert (K : 0 < h x0 / 2 * eta * d) by (repeat apply Rmult_lt_0_compat; lra).
  apply Rmult_lt_compat_r with (r := h x0 / 2 * eta * d) in HN; [|exact K]. unfold Rdiv at 1 in HN. rewrite Rmult_assoc, Rinv_l, Rmult_1_r in HN by lra.
  nra.
Qed.

Lemma fourier_zero h : (forall x, continuity_pt h x) -> (forall x (z : Z), h (x + 2 * PI * IZR z) = h x) ->
  (forall n : Z, integral (fun t => cos (IZR n * t) * h t) 0 (2 * PI) 0 /\ integral (fun t => sin (IZR n * t) * h t) 0 (2 * PI) 0) ->
  forall x, h x = 0.
Proof.
  intros C P H x. pose proof PI_RGT_0. assert (L : 0 <= 2 * PI) by lra. pose proof (fourier_le h C P H x) as A.
  assert (B : - h x <= 0).
  { apply (fourier_le (fun t => - h t)).
    - intros y. apply (continuity_pt_opp h), C.
    - intros y z. rewrite P. reflexivity.
    - intros n. destruct (H n) as [H1 H2].
      pose proof (integral_scal _ _ _ (-1) _ L H1) as K1. pose proof (integral_scal _ _ _ (-1) _ L H2) as K2.
      split; [refine (integral_val _ _ _ _ _ _ (integral_ext _ _ _ _ _ L _ K1))|refine (integral_val _ _ _ _ _ _ (integral_ext _ _ _ _ _ L _ K2))]; try ring; intros t _; ring. }
  lra.
Qed.
(** The same from the coefficients of positive order, for a function with mean 0 or value 0 somewhere. *)
Lemma fourier_const h x0 : (forall x, continuity_pt h x) -> (forall x (z : Z), h (x + 2 * PI * IZR z) = h x) ->
  (forall n : nat, (1 <= n)%nat -> integral (fun t => cos (INR n * t) * h t) 0 (2 * PI) 0 /\ integral (fun t => sin (INR n * t) * h t) 0 (2 * PI) 0) ->
  h x0 = 0 -> forall x, h x = 0.
Proof.
  intros C P H Hx0. pose proof PI_RGT_0 as HP. assert (L : 0 <= 2 * PI) by lra.
  destruct (continuous_integral h 0 (2 * PI) L ltac:(intros; apply C)) as [c Ic].
  set (k := c / (2 * PI)). assert (Z : forall x, h x + - k * 1 = 0).
  { apply (fourier_zero (fun x => h x + - k * 1)).
    - intros x. apply cont_plus; [apply C|apply cont_const].
    - intros x z. rewrite P. reflexivity.
    - assert (G : forall n : nat, integral (fun t => cos (INR n * t) * (h t + - k * 1)) 0 (2 * PI) 0 /\ integral (fun t => sin (INR n * t) * (h t + - k * 1)) 0 (2 * PI) 0).
      { intros n. destruct n as [|n].
        - cbn [INR]. split.
          + pose proof (integral_lin _ _ _ _ (- k) _ _ Ic (integral_const 0 (2 * PI) 1)) as K.
            refine (integral_val _ _ _ _ _ _ (integral_ext _ _ _ _ _ L _ K)); [unfold k; field; lra|]. intros t _. rewrite Rmult_0_l, cos_0. ring.
          + refine (integral_val _ _ _ _ _ _ (integral_ext _ _ _ _ _ L _ (integral_const 0 (2 * PI) 0))); [ring|]. intros t _. rewrite Rmult_0_l, sin_0. ring.
        - destruct (H (S n) ltac:(lia)) as [A B]. split.
          + pose proof (integral_lin _ _ _ _ (- k) _ _ A (int_cos_n (S n) ltac:(lia))) as K. refine (integral_val _ _ _ _ _ _ (integral_ext _ _ _ _ _ L _ K)); [ring|]. intros t _. cbv beta. ring.
          + pose proof (integral_lin _ _ _ _ (- k) _ _ B (int_sin_n (S n))) as K. refine (integral_val _ _ _ _ _ _ (integral_ext _ _ _ _ _ L _ K)); [ring|]. intros t _. cbv beta. ring. }
      intros n. destruct (Z.le_gt_cases 0 n) as [Hn|Hn].
      + destruct (G (Z.to_nat n)) as [A B]. rewrite INR_IZR_INZ, Z2Nat.id in A, B by exact Hn. split; assumption.
      + destruct (G (Z.to_nat (- n))) as [A B]. rewrite INR_IZR_INZ, Z2Nat.id, opp_IZR in A, B by lia. split.
        * revert A. apply integral_ext; [exact L|]. intros t _. replace (- IZR n * t) with (- (IZR n * t)) by ring. rewrite cos_neg. reflexivity.
        * pose proof (integral_scal _ _ _ (-1) _ L B) as K. refine (integral_val _ _ _ _ _ _ (integral_ext _ _ _ _ _ L _ K)); [ring|].
          intros t _. cbv beta. replace (- IZR n * t) with (- (IZR n * t)) by ring. rewrite sin_neg. ring. }
  intros x. pose proof (Z x). pose proof (Z x0). lra.
Qed.
