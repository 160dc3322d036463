(** The normalising constant and the density of a fresh object. *)
From Verif Require Import Prelude NpModel NpProofs CircleSpec IntSpec IntProofs DistModel DistSpec DistProofs Dist2Proofs Dist4Proofs Dist5Proofs
  Dist6Proofs Dist7Proofs KjProofs Kj2Proofs VonModel VonSpec Von3Proofs Von4Proofs JpProofs Jp3Proofs Wn3Proofs Wn6Proofs Ws3Proofs GaussProofs Von6Proofs Jp5Proofs
  FtModel FtSpec FtProofs Ft2Proofs Ft3Proofs Ft4Proofs Ft5Proofs Ft8Proofs IbModel IbProofs Ib2Proofs.

Lemma ib_ok_spec xi kappa nu lam : ib_ok xi kappa nu lam = true <-> 0 <= xi <= 2 * PI /\ 0 <= kappa /\ -1 <= nu <= 1 /\ -1 <= lam <= 1.
Proof. unfold ib_ok. rewrite !Bool.andb_true_iff, !Rleb_true. tauto. Qed.
Lemma close12_minus lam : isclose12 lam (- 1) = true <-> Rabs (lam + 1) <= / 1000000000000 + / 100000.
Proof.
  unfold isclose12, isclose_tol. rewrite Rleb_true, (Rabs_left (- 1)) by lra. replace (lam - -1) with (lam + 1) by ring. replace (- -1) with 1 by ring. rewrite Rmult_1_r. tauto.
Qed.
Lemma close12_plus lam : isclose12 lam 1 = true <-> Rabs (lam - 1) <= / 1000000000000 + / 100000.
Proof. unfold isclose12, isclose_tol. rewrite Rleb_true, Rabs_R1, Rmult_1_r. tauto. Qed.
Lemma close_minus lam : isclose lam (- 1) = true <-> Rabs (lam + 1) <= / 100000000 + / 100000.
Proof.
  unfold isclose, isclose_tol. rewrite Rleb_true, (Rabs_left (- 1)) by lra. replace (lam - -1) with (lam + 1) by ring. replace (- -1) with 1 by ring. rewrite Rmult_1_r. tauto.
Qed.
Lemma not_true_false (b : bool) (P : Prop) : (b = true <-> P) -> ~ P -> b = false.
Proof. intros H N. destruct b; [|reflexivity]. exfalso. apply N, H. reflexivity. Qed.
(** lambda away from the windows around -1 and 1 (or one of the two ends). *)
Definition lam_mid (lam : R) : Prop := -1 + / 10 ^ 4 <= lam <= 1 - / 10 ^ 4.
Lemma mid_close lam : lam_mid lam -> isclose12 lam (- 1) = false /\ isclose12 lam 1 = false /\ isclose lam (- 1) = false.
Proof.
  intros [L U]. split; [|split]; [apply (not_true_false _ _ (close12_minus lam))|apply (not_true_false _ _ (close12_plus lam))|apply (not_true_false _ _ (close_minus lam))]; intros A; apply abs_le_inv in A; lra.
Qed.
Lemma end_close : isclose12 (- 1) (- 1) = true /\ isclose (- 1) (- 1) = true /\ isclose12 (- 1) 1 = false /\ isclose12 1 1 = true /\ isclose12 1 (- 1) = false /\ isclose 1 (- 1) = false.
Proof.
  repeat split; try apply close12_minus; try apply close_minus; try apply close12_plus;
    try (apply (not_true_false _ _ (close12_plus _))); try (apply (not_true_false _ _ (close12_minus _))); try (apply (not_true_false _ _ (close_minus _)));
    try (intros A; apply abs_le_inv in A; lra); apply Rabs_le; lra.
Qed.

(** ** The normalising constant *)
Definition ib_T (kappa lam : R) : R := trap_cum ib_grid (fun j => ft_shape kappa (- (1 / 2 * (1 - lam))) (node ib_grid j)) ib_grid.
Lemma ib_grid_INR : INR ib_grid = 4096. Proof. unfold ib_grid. rewrite INR_IZR_INZ, Z2Nat.id by lia. reflexivity. Qed.
Lemma ib_grid_pos : (0 < ib_grid)%nat. Proof. apply INR_lt. rewrite ib_grid_INR. cbn [INR]. lra. Qed.
Lemma ib_int_T kappa lam : exp (ib_log_int kappa lam ib_grid) = ib_T kappa lam.
Proof.
  unfold ib_log_int, ib_T. rewrite exp_log_trap by exact ib_grid_pos. apply trap_cum_ext. intros j _. unfold ft_shape, ft_log. f_equal. f_equal. f_equal. ring.
Qed.
Lemma ib_T_pos kappa lam : 0 < ib_T kappa lam. Proof. rewrite <- ib_int_T. apply exp_pos. Qed.
Lemma ib_T_near kappa lam I : 0 <= kappa -> -1 <= lam <= 1 -> integral (ft_shape kappa (- (1 / 2 * (1 - lam)))) (- PI) PI I ->
  Rabs (ib_T kappa lam - I) <= PI * (kappa * (1 + 1 / 2 * (1 - lam))) / 4096 * I.
Proof.
  intros Hk Hl HI. set (a := 1 / 2 * (1 - lam)) in *.
  pose proof (trap_error (ft_shape kappa (- a)) (fun x => kappa * (- sin (x + - a * sin x) * (1 + - a * cos x)) * ft_shape kappa (- a) x) (kappa * (1 + Rabs (- a))) ib_grid ib_grid_pos) as B.
  specialize (B ltac:(intros x; apply ft_shape_d) ltac:(intros x; apply cont_mult; [apply derivable_continuous_pt; reg|apply ft_shape_cont]) ltac:(intros x; apply ft_shape_d_bound, Hk) ib_grid I).
  rewrite node_N in B by exact ib_grid_pos. specialize (B HI). rewrite Rabs_Ropp, (Rabs_pos_eq a) in B by (unfold a; lra). rewrite ib_grid_INR in B. unfold ib_T. fold a. apply Rabs_le. lra.
Qed.
Lemma ib_mult_val iv kappa : is_iv iv -> exp (ib_log_mult iv kappa) = 2 * PI * iv 0%nat kappa.
Proof.
  intros Hiv. pose proof PI_gt3. pose proof (i0_ge1 iv kappa Hiv) as I0. unfold ib_log_mult. rewrite !exp_plus, exp_ln, exp_ln by (try apply Rmult_lt_0_compat; try apply exp_pos; lra).
  rewrite exp_Ropp. pose proof (exp_pos kappa). field. lra.
Qed.
(** The denominator that the code forms. *)
Definition ib_D iv (kappa lam : R) : R := (1 + lam) * (2 * PI * iv 0%nat kappa) - (if Rleb (Rabs lam) ib_tol then 0 else 2 * lam * ib_T kappa lam).
Lemma ib_c_num_val iv kappa lam : is_iv iv -> lam_mid lam -> 0 < ib_D iv kappa lam -> ib_c_numeric iv kappa lam ib_grid = Fin ((1 - lam) / ib_D iv kappa lam).
Proof.
  intros Hiv Hm HD. destruct (mid_close lam Hm) as (C1 & C2 & C3). destruct Hm as [Hl Hu]. unfold ib_c_numeric. rewrite C1. cbv zeta.
  set (t1 := ln (1 + lam) + ib_log_mult iv kappa). set (t2 := ln (2 * Rabs lam) + ib_log_int kappa lam ib_grid).
  assert (E1 : exp t1 = (1 + lam) * (2 * PI * iv 0%nat kappa)) by (unfold t1; rewrite exp_plus, exp_ln, ib_mult_val by (try assumption; lra); reflexivity).
  assert (FIN : forall m d, exp m * d = ib_D iv kappa lam -> (if Rleb d 0 then NaN else Fin (exp (ln (1 - lam) - (m + ln d)))) = Fin ((1 - lam) / ib_D iv kappa lam)).
  { intros m d E. pose proof (exp_pos m) as Em. assert (0 < d) by (destruct (Rlt_le_dec 0 d) as [|X]; [assumption|nra]).
    rewrite (proj2 (Rleb_false d 0)) by assumption. f_equal. unfold Rminus. rewrite exp_plus, exp_ln, exp_Ropp, exp_plus, exp_ln, E by lra. reflexivity. }
  destruct (Rleb_spec (Rabs lam) ib_tol) as [Z|Z].
  - apply FIN. unfold ib_D. rewrite (proj2 (Rleb_true (Rabs lam) ib_tol)) by exact Z. rewrite Rminus_eq_0, exp_0, <- E1. destruct (Rleb 0 lam); ring.
  - apply FIN. unfold ib_D. rewrite (proj2 (Rleb_false (Rabs lam) ib_tol)) by lra. assert (0 < Rabs lam) by (unfold ib_tol in Z; lra).
    assert (E2 : exp t2 = 2 * Rabs lam * ib_T kappa lam) by (unfold t2; rewrite exp_plus, exp_ln, ib_int_T by lra; reflexivity).
    set (m := Rmax t1 t2). assert (X1 : exp m * exp (t1 - m) = exp t1) by (rewrite <- exp_plus; f_equal; ring). assert (X2 : exp m * exp (t2 - m) = exp t2) by (rewrite <- exp_plus; f_equal; ring).
    destruct (Rleb_spec 0 lam) as [S|S].
    + replace (exp m * (exp (t1 - m) - exp (t2 - m))) with (exp m * exp (t1 - m) - exp m * exp (t2 - m)) by ring. rewrite X1, X2, E1, E2, Rabs_pos_eq by lra. ring.
    + replace (exp m * (exp (t1 - m) + exp (t2 - m))) with (exp m * exp (t1 - m) + exp m * exp (t2 - m)) by ring. rewrite X1, X2, E1, E2, Rabs_left by lra. ring.
Qed.
Definition ib_q (kappa lam : R) : R := 4 * Rabs lam * (PI * kappa * (1 + 1 / 2 * (1 - lam))) / (4096 * (1 - lam) ^ 2).
(** What is needed of the constant: it is positive, and times the integral of the kernel it is nearly one. *)
Lemma ib_c_mid iv kappa lam I J : is_iv iv -> 0 <= kappa -> lam_mid lam -> ib_q kappa lam <= 1 / 2 ->
  integral (ft_shape kappa (- (1 / 2 * (1 - lam)))) (- PI) PI I ->
  integral (fun u => ft_shape kappa (- (1 / 2 * (1 - lam))) u * (1 - 1 / 2 * (1 + lam) * cos u)) (- PI) PI J ->
  0 < ib_D iv kappa lam /\ (lam = 0 -> ib_D iv kappa lam = (1 - lam) * J) /\ Rabs (ib_D iv kappa lam / ((1 - lam) * J) - 1) <= ib_q kappa lam + 5 / 10 ^ 12.
Proof.
  intros Hiv Hk Hm Hq HI HJ. pose proof PI_gt3. assert (Hl : -1 <= lam <= 1) by (destruct Hm; lra). assert (Hl1 : 0 < 1 - lam) by (destruct Hm; lra).
  destruct (ib_J iv kappa lam I J Hiv Hk Hl HI HJ) as (EJ & BJ & PJ).
  assert (I0 : 0 < I). { destruct (ft_shape_I kappa (- (1 / 2 * (1 - lam)))) as (v & Iv & V). rewrite (integral_unique _ _ _ _ _ HI Iv). exact V. }
  pose proof (ib_T_near kappa lam I Hk Hl HI) as TN. set (e := PI * (kappa * (1 + 1 / 2 * (1 - lam))) / 4096) in *.
  assert (e0 : 0 <= e). { unfold e. assert (0 <= PI * (kappa * (1 + 1 / 2 * (1 - lam)))) by (apply Rmult_le_pos; [lra|apply Rmult_le_pos; lra]). lra. }
  assert (Eq : ib_q kappa lam = 4 * Rabs lam * e / (1 - lam) ^ 2) by (unfold ib_q, e; field; lra).
  assert (P2 : 0 < (1 - lam) * J) by (apply Rmult_lt_0_compat; assumption).
  assert (B2 : 1 / 2 * (1 - lam) ^ 2 * I <= (1 - lam) * J). { replace (1 / 2 * (1 - lam) ^ 2 * I) with ((1 - lam) * (1 / 2 * (1 - lam) * I)) by ring. apply Rmult_le_compat_l; lra. }
  assert (Gen : forall x r, 0 <= r -> Rabs x <= 2 * Rabs lam * r * I -> Rabs (x / ((1 - lam) * J)) <= 4 * Rabs lam * r / (1 - lam) ^ 2).
  { intros x r Hr Hx. unfold Rdiv. rewrite Rabs_mult, (Rabs_pos_eq (/ ((1 - lam) * J))) by (left; apply Rinv_0_lt_compat, P2). apply Rmult_le_reg_r with ((1 - lam) * J); [exact P2|].
    rewrite Rmult_assoc, Rinv_l, Rmult_1_r by lra. eapply Rle_trans; [exact Hx|]. assert (0 < (1 - lam) ^ 2) by (apply pow_lt; lra).
    replace (2 * Rabs lam * r * I) with (4 * Rabs lam * r * / (1 - lam) ^ 2 * (1 / 2 * (1 - lam) ^ 2 * I)) by (field; lra). apply Rmult_le_compat_l; [|exact B2].
    pose proof (Rabs_pos lam). apply Rmult_le_pos; [apply Rmult_le_pos; lra|left; apply Rinv_0_lt_compat; lra]. }
  unfold ib_D. pose proof (Rabs_pos lam) as L0. destruct (Rleb_spec (Rabs lam) ib_tol) as [Z|Z].
  - unfold ib_tol in Z. assert (lam < 1 / 100) by (pose proof (Rle_abs lam); lra).
    assert (lam > - (1 / 100)) by (pose proof (Rle_abs (- lam)) as X; rewrite Rabs_Ropp in X; lra).
    assert (ED : (1 + lam) * (2 * PI * iv 0%nat kappa) - 0 = (1 - lam) * J + 2 * lam * I) by (rewrite EJ; ring). pose proof (i0_ge1 iv kappa Hiv) as V0. split; [|split].
    + assert (0 < (1 + lam) * (2 * PI * iv 0%nat kappa)) by (apply Rmult_lt_0_compat; [lra|apply Rmult_lt_0_compat; lra]). lra.
    + intros E. rewrite ED, E. ring.
    + rewrite ED. replace (((1 - lam) * J + 2 * lam * I) / ((1 - lam) * J) - 1) with (2 * lam * I / ((1 - lam) * J)) by (field; lra).
      eapply Rle_trans; [apply (Gen _ 1 ltac:(lra))|].
      * rewrite !Rabs_mult, (Rabs_pos_eq 2), (Rabs_pos_eq I) by lra. lra.
      * assert (Q0 : 0 <= ib_q kappa lam). { rewrite Eq. unfold Rdiv. apply Rmult_le_pos; [apply Rmult_le_pos; lra|left; apply Rinv_0_lt_compat, pow_lt; lra]. }
        assert (4 * Rabs lam * 1 / (1 - lam) ^ 2 <= 5 / 10 ^ 12); [|lra]. apply Rmult_le_reg_r with ((1 - lam) ^ 2); [apply pow_lt; lra|].
        unfold Rdiv at 1. rewrite Rmult_assoc, Rinv_l by (apply pow_nonzero; lra). assert (98 / 100 <= (1 - lam) ^ 2) by nra. nra.
  - assert (ED : (1 + lam) * (2 * PI * iv 0%nat kappa) - 2 * lam * ib_T kappa lam = (1 - lam) * J + - (2 * lam * (ib_T kappa lam - I))) by (rewrite EJ; ring).
    assert (R1 : Rabs (- (2 * lam * (ib_T kappa lam - I)) / ((1 - lam) * J)) <= ib_q kappa lam).
    { rewrite Eq. apply Gen; [exact e0|]. rewrite Rabs_Ropp, !Rabs_mult, (Rabs_pos_eq 2) by lra. rewrite (Rmult_assoc (2 * Rabs lam)). apply Rmult_le_compat_l; lra. }
    rewrite ED. replace (((1 - lam) * J + - (2 * lam * (ib_T kappa lam - I))) / ((1 - lam) * J) - 1) with (- (2 * lam * (ib_T kappa lam - I)) / ((1 - lam) * J)) by (field; lra).
    split; [|split; [|lra]].
    + replace ((1 - lam) * J + - (2 * lam * (ib_T kappa lam - I))) with ((1 - lam) * J * (1 + - (2 * lam * (ib_T kappa lam - I)) / ((1 - lam) * J))) by (field; lra).
      apply Rmult_lt_0_compat; [exact P2|]. apply abs_le_inv in R1. lra.
    + intros E. rewrite E, Rabs_R0 in Z. unfold ib_tol in Z. lra.
Qed.
