(** Bessel functions: log-concavity in the order, decay, and the Fourier series of exp(k cos). *)
From Verif Require Import Prelude NpModel NpProofs CircleSpec IntSpec IntProofs DistModel DistSpec DistProofs Dist2Proofs Dist4Proofs Dist5Proofs
  Dist6Proofs Dist7Proofs Dist8Proofs KjProofs Kj2Proofs VonModel VonSpec VonProofs.

Lemma INR_unbounded x : exists n, x < INR n.
Proof.
  destruct (archimed x) as [A _]. exists (Z.to_nat (up x)). rewrite INR_IZR_INZ.
  destruct (Z_le_gt_dec 0 (up x)) as [L|L]; [rewrite Z2Nat.id by exact L; lra|].
  assert (IZR (up x) < 0) by (apply IZR_lt; lia). pose proof (IZR_le 0 (Z.of_nat (Z.to_nat (up x))) ltac:(lia)). lra.
Qed.
Definition vr (iv : nat -> R -> R) (k : R) (m : nat) : R := iv (S m) k / iv m k.
Lemma vr_pos iv k m : is_iv iv -> 0 < k -> 0 < vr iv k m.
Proof. intros H Hk. apply Rdiv_lt_0_compat; apply iv_pos; assumption. Qed.
Lemma vr_rec iv k m : is_iv iv -> 0 < k -> vr iv k m * (2 * INR (S m) / k + vr iv k (S m)) = 1.
Proof.
  intros H Hk. unfold vr. pose proof (iv_rec iv m k H) as E.
  pose proof (iv_pos iv m k H Hk). pose proof (iv_pos iv (S m) k H Hk).
  assert (E2 : iv (S (S m)) k = iv m k - 2 * INR (S m) * iv (S m) k / k).
  { apply Rmult_eq_reg_l with k; [|lra]. rewrite E. field. lra. }
  rewrite E2. field. repeat split; lra.
Qed.
Lemma vr_lt iv k m : is_iv iv -> 0 < k -> vr iv k m < k / (2 * INR (S m)).
Proof.
  intros H Hk. pose proof (vr_rec iv k m H Hk) as E. pose proof (vr_pos iv k m H Hk) as P. pose proof (vr_pos iv k (S m) H Hk) as P'.
  assert (Hm : 0 < INR (S m)) by (apply lt_0_INR; lia).
  assert (Hp : 0 < 2 * INR (S m) / k) by (apply Rdiv_lt_0_compat; lra).
  assert (B : vr iv k m * (2 * INR (S m) / k) < 1) by (assert (0 < vr iv k m * vr iv k (S m)) by (apply Rmult_lt_0_compat; assumption); lra).
  apply Rmult_lt_reg_r with (2 * INR (S m) / k); [exact Hp|]. replace (k / (2 * INR (S m)) * (2 * INR (S m) / k)) with 1 by (field; lra). exact B.
Qed.
Lemma vr_prod iv k m : is_iv iv -> 0 < k -> vr iv k m * vr iv k (S m) < 1.
Proof.
  intros H Hk. pose proof (vr_rec iv k m H Hk) as E. pose proof (vr_pos iv k m H Hk) as P.
  assert (Hm : 0 < INR (S m)) by (apply lt_0_INR; lia).
  assert (Hp : 0 < 2 * INR (S m) / k) by (apply Rdiv_lt_0_compat; lra).
  assert (0 < vr iv k m * (2 * INR (S m) / k)) by (apply Rmult_lt_0_compat; assumption). lra.
Qed.
Lemma vr_diff iv k m : is_iv iv -> 0 < k ->
  vr iv k m - vr iv k (S m) = vr iv k m * vr iv k (S m) * (2 / k - (vr iv k (S m) - vr iv k (S (S m)))).
Proof.
  intros H Hk. pose proof (vr_rec iv k m H Hk) as E0. pose proof (vr_rec iv k (S m) H Hk) as E1.
  pose proof (vr_pos iv k m H Hk). pose proof (vr_pos iv k (S m) H Hk).
  rewrite (S_INR (S m)) in E1. set (a := vr iv k m) in *. set (b := vr iv k (S m)) in *. set (c := vr iv k (S (S m))) in *. set (n := INR (S m)) in *.
  assert (Ec : a * b * c = a - a * b * (2 * (n + 1) / k)) by (replace a with (a * (b * (2 * (n + 1) / k + c))) at 2 by (rewrite E1; ring); ring).
  replace (a * b * (2 / k - (b - c))) with (a * b * (2 / k) - b * (a * b) + a * b * c) by ring. rewrite Ec.
  replace (b * (a * b)) with (b * (1 - a * (2 * n / k))) by (rewrite <- E0; ring). field. lra.
Qed.
Lemma vr_conc iv k : is_iv iv -> 0 < k -> forall m, 0 <= vr iv k m - vr iv k (S m) <= 2 / k.
Proof.
  intros H Hk. assert (K2 : 0 < 2 / k) by (apply Rdiv_lt_0_compat; lra).
  assert (Step : forall m, 0 <= vr iv k (S m) - vr iv k (S (S m)) <= 2 / k -> 0 <= vr iv k m - vr iv k (S m) <= 2 / k).
  { intros m Hd. rewrite vr_diff by assumption. pose proof (vr_prod iv k m H Hk). pose proof (vr_pos iv k m H Hk). pose proof (vr_pos iv k (S m) H Hk).
    assert (0 < vr iv k m * vr iv k (S m)) by (apply Rmult_lt_0_compat; assumption).
    set (d := vr iv k (S m) - vr iv k (S (S m))) in *. set (p := vr iv k m * vr iv k (S m)) in *. split; nra. }
  assert (Base : exists M, forall m, (M <= m)%nat -> 0 <= vr iv k m - vr iv k (S m) <= 2 / k).
  { destruct (INR_unbounded (k + k * k)) as [M HM]. exists M. intros m Hm.
    assert (Hb : forall j, (M <= j)%nat -> vr iv k j <= 1 / 2 /\ vr iv k j <= 1 / k).
    { intros j Hj. apply le_INR in Hj. pose proof (vr_lt iv k j H Hk) as B. rewrite S_INR in B.
      split; (eapply Rle_trans; [left; exact B|]).
      - apply Rmult_le_reg_r with (2 * (INR j + 1)); [nra|]. unfold Rdiv. rewrite Rmult_assoc, Rinv_l by nra. nra.
      - apply Rmult_le_reg_r with (2 * (INR j + 1)); [nra|]. unfold Rdiv at 1. rewrite Rmult_assoc, Rinv_l by nra.
        apply Rmult_le_reg_r with k; [exact Hk|]. replace (1 / k * (2 * (INR j + 1)) * k) with (2 * (INR j + 1)) by (field; lra). nra. }
    destruct (Hb m Hm) as [A1 A2]. destruct (Hb (S m) ltac:(lia)) as [B1 B2]. destruct (Hb (S (S m)) ltac:(lia)) as [C1 C2].
    pose proof (vr_pos iv k m H Hk). pose proof (vr_pos iv k (S m) H Hk). pose proof (vr_pos iv k (S (S m)) H Hk).
    rewrite vr_diff by assumption.
    assert (E : 1 / k = 2 / k / 2) by (field; lra). rewrite E in *. set (q := 2 / k) in *.
    assert (0 < vr iv k m * vr iv k (S m) <= 1 / 4).
    { split; [apply Rmult_lt_0_compat; assumption|]. replace (1 / 4) with (1 / 2 * (1 / 2)) by field. apply Rmult_le_compat; lra. }
    set (d := vr iv k (S m) - vr iv k (S (S m))) in *. set (p := vr iv k m * vr iv k (S m)) in *.
    assert (- (q / 2) <= d <= q / 2) by (unfold d; lra). split; nra. }
  destruct Base as [M HM]. intros m.
  enough (G : forall j m, (M <= m + j)%nat -> 0 <= vr iv k m - vr iv k (S m) <= 2 / k) by (apply (G M m); lia).
  induction j as [|j IH]; intros m' Hm'; [apply HM; lia|]. apply Step. apply IH. lia.
Qed.
Lemma vr_dec iv k m j : is_iv iv -> 0 < k -> vr iv k (m + j) <= vr iv k m.
Proof.
  intros H Hk. induction j as [|j IH]; [rewrite Nat.add_0_r; lra|]. rewrite Nat.add_succ_r.
  pose proof (vr_conc iv k H Hk (m + j)). lra.
Qed.
Lemma iv_step iv k m : is_iv iv -> 0 < k -> iv (S m) k = iv m k * vr iv k m.
Proof. intros H Hk. unfold vr. pose proof (iv_pos iv m k H Hk). field. lra. Qed.
(** Beyond order N the functions fall at least geometrically. *)
Lemma iv_geom iv k N j : is_iv iv -> 0 < k -> iv (N + j)%nat k <= iv N k * vr iv k N ^ j.
Proof.
  intros H Hk. induction j as [|j IH]; [rewrite Nat.add_0_r; cbn; lra|]. rewrite Nat.add_succ_r, iv_step by assumption. cbn [pow].
  pose proof (vr_dec iv k N j H Hk). pose proof (vr_pos iv k N H Hk). pose proof (vr_pos iv k (N + j) H Hk). pose proof (iv_pos iv (N + j) k H Hk).
  replace (iv N k * (vr iv k N * vr iv k N ^ j)) with (iv N k * vr iv k N ^ j * vr iv k N) by ring.
  apply Rmult_le_compat; lra.
Qed.
(** ... and up to N they have fallen at most geometrically. *)
Lemma iv_geom_below iv k N : is_iv iv -> 0 < k -> iv 0%nat k * vr iv k N ^ N <= iv N k.
Proof.
  intros H Hk. enough (G : forall j, (j <= N)%nat -> iv 0%nat k * vr iv k N ^ j <= iv j k) by (apply G; lia).
  induction j as [|j IH]; intros Hj; [cbn; lra|]. rewrite iv_step by assumption. cbn [pow].
  replace (iv 0%nat k * (vr iv k N * vr iv k N ^ j)) with (iv 0%nat k * vr iv k N ^ j * vr iv k N) by ring.
  pose proof (vr_dec iv k j (N - j) H Hk) as D. replace (j + (N - j))%nat with N in D by lia.
  pose proof (vr_pos iv k N H Hk). pose proof (iv_pos iv 0 k H Hk).
  apply Rmult_le_compat; [apply Rmult_le_pos; [lra|apply pow_le; lra]|lra|apply IH; lia|exact D].
Qed.
Lemma iv_to_zero iv k eps : is_iv iv -> 0 < k -> 0 < eps -> exists N, forall m, (N <= m)%nat -> iv m k < eps.
Proof.
  intros H Hk He. destruct (INR_unbounded k) as [M HM].
  assert (Hr : vr iv k M <= 1 / 2).
  { pose proof (vr_lt iv k M H Hk) as B. rewrite S_INR in B. left. eapply Rlt_trans; [exact B|].
    apply Rmult_lt_reg_r with (2 * (INR M + 1)); [lra|]. unfold Rdiv at 1. rewrite Rmult_assoc, Rinv_l by lra. lra. }
  pose proof (iv_pos iv M k H Hk) as IM. pose proof (vr_pos iv k M H Hk) as RM.
  destruct (pow_lt_1_zero (1 / 2) ltac:(rewrite Rabs_right; lra) (eps / iv M k) ltac:(apply Rdiv_lt_0_compat; assumption)) as [J HJ].
  exists (M + J)%nat. intros m Hm. replace m with (M + (m - M))%nat by lia.
  eapply Rle_lt_trans; [apply iv_geom; assumption|].
  specialize (HJ (m - M)%nat ltac:(lia)). rewrite Rabs_right in HJ by (apply Rle_ge, pow_le; lra).
  assert (vr iv k M ^ (m - M) <= (1 / 2) ^ (m - M)) by (apply pow_incr; lra).
  apply Rmult_lt_reg_r with (/ iv M k); [apply Rinv_0_lt_compat; exact IM|].
  replace (iv M k * vr iv k M ^ (m - M) * / iv M k) with (vr iv k M ^ (m - M)) by (field; lra). unfold Rdiv in HJ. lra.
Qed.

(** ** The truncated Fourier series and its differential equation *)
Definition vS (iv : nat -> R -> R) (k : R) (N : nat) (t : R) : R :=
  iv 0%nat k + 2 * Rsum (map (fun n => iv n k * cos (INR n * t)) (seq 1 N)).
Lemma vS_S iv k N t : vS iv k (S N) t = vS iv k N t + 2 * (iv (S N) k * cos (INR (S N) * t)).
Proof.
  unfold vS. rewrite seq_S, map_app, Rsum_app. replace (1 + N)%nat with (S N) by lia.
  replace (map (fun n => iv n k * cos (INR n * t)) [S N]) with [iv (S N) k * cos (INR (S N) * t)] by reflexivity.
  unfold Rsum at 2. cbn [fold_right]. ring.
Qed.
Definition vSd (iv : nat -> R -> R) (k : R) (N : nat) (t : R) : R :=
  - k * sin t * vS iv k N t + k * (iv N k * sin (INR (S N) * t) + iv (S N) k * sin (INR N * t)).
Lemma vS_d iv k N t : is_iv iv -> derivable_pt_lim (vS iv k N) t (vSd iv k N t).
Proof.
  intros H. induction N as [|N IH].
  - apply (dlim_ext (fun _ => iv 0%nat k)); [intros y; unfold vS; cbn; ring|]. eapply dlim_eq; [|apply dlim_const].
    unfold vSd, vS. cbn [seq map]. unfold Rsum. cbn [fold_right INR]. rewrite Rmult_0_l, sin_0, Rmult_1_l. ring.
  - apply (dlim_ext (fun t => vS iv k N t + 2 * (iv (S N) k * cos (INR (S N) * t)))); [intros y; symmetry; apply vS_S|].
    eapply dlim_eq; [|apply dlim_plus; [exact IH|apply dlim_scal; apply dlim_scal; apply cosn_d]].
    unfold vSd. rewrite vS_S. pose proof (iv_rec iv N k H) as E.
    assert (C1 : 2 * sin t * cos (INR (S N) * t) = sin (INR (S (S N)) * t) - sin (INR N * t)).
    { rewrite !S_INR. replace (INR N * t) with ((INR N + 1) * t - t) by ring. replace ((INR N + 1 + 1) * t) with ((INR N + 1) * t + t) by ring.
      rewrite sin_minus, sin_plus. ring. }
    replace (- k * sin t * (vS iv k N t + 2 * (iv (S N) k * cos (INR (S N) * t))))
      with (- k * sin t * vS iv k N t - k * iv (S N) k * (2 * sin t * cos (INR (S N) * t))) by ring.
    rewrite C1.
    replace (k * (iv (S N) k * sin (INR (S (S N)) * t) + iv (S (S N)) k * sin (INR (S N) * t)))
      with (k * iv (S N) k * sin (INR (S (S N)) * t) + (k * iv (S (S N)) k) * sin (INR (S N) * t)) by ring.
    rewrite E. ring.
Qed.
Lemma vS_cont iv k N t : is_iv iv -> continuity_pt (vS iv k N) t.
Proof. intros H. eapply dlim_cont. apply vS_d. exact H. Qed.
(** exp(- k cos t) S_N(t) is nearly constant. *)
Lemma vS_flat iv k N x y : is_iv iv -> 0 < k -> x <= y ->
  Rabs (vS iv k N y * vE (- k) y - vS iv k N x * vE (- k) x) <= 2 * k * iv N k * exp k * (y - x) * (1 + vr iv k N).
Proof.
  intros H Hk Hxy. pose proof (iv_pos iv N k H Hk) as IN. pose proof (iv_pos iv (S N) k H Hk) as IS.
  set (g := fun t => k * (iv N k * sin (INR (S N) * t) + iv (S N) k * sin (INR N * t)) * vE (- k) t).
  assert (D : forall t, derivable_pt_lim (fun t => vS iv k N t * vE (- k) t) t (g t)).
  { intros t. eapply dlim_eq; [|apply dlim_mult; [apply vS_d; exact H|apply vE_d]]. unfold g, vSd. ring. }
  assert (C : forall t, continuity_pt g t).
  { intros t. unfold g. apply (cont_mult (fun t => k * (iv N k * sin (INR (S N) * t) + iv (S N) k * sin (INR N * t))) (vE (- k))); [|apply vE_cont].
    apply cont_mult; [apply cont_const|]. apply cont_plus; (apply cont_mult; [apply cont_const|apply sin_n_cont]). }
  pose proof (ftc g (fun t => vS iv k N t * vE (- k) t) x y Hxy (fun t _ => C t) (fun t _ => D t)) as I. cbv beta in I.
  set (B := 2 * k * iv N k * exp k * (1 + vr iv k N)).
  replace (2 * k * iv N k * exp k * (y - x) * (1 + vr iv k N)) with (B * (y - x)) by (unfold B; ring).
  apply (integral_abs g (fun _ => B) x y); [exact Hxy| |exact I|apply integral_const].
  intros t _. unfold g, B. rewrite !Rabs_mult, (Rabs_right k), (Rabs_right (vE _ _)) by (try lra; left; apply vE_pos).
  assert (E1 : vE (- k) t <= exp k).
  { unfold vE. pose proof (COS_bound t). assert (L : - k * cos t <= k) by nra.
    destruct L as [L|L]; [left; apply exp_increasing; exact L|rewrite L; right; reflexivity]. }
  assert (E2 : Rabs (iv N k * sin (INR (S N) * t) + iv (S N) k * sin (INR N * t)) <= 2 * iv N k * (1 + vr iv k N)).
  { eapply Rle_trans; [apply Rabs_triang|]. rewrite !Rabs_mult, (Rabs_right (iv N k)), (Rabs_right (iv (S N) k)) by lra.
    assert (Es : iv (S N) k = iv N k * vr iv k N) by (apply iv_step; assumption).
    pose proof (SIN_bound (INR (S N) * t)). pose proof (SIN_bound (INR N * t)).
    assert (Rabs (sin (INR (S N) * t)) <= 1) by (apply Rabs_le; lra). assert (Rabs (sin (INR N * t)) <= 1) by (apply Rabs_le; lra).
    pose proof (Rabs_pos (sin (INR (S N) * t))). pose proof (Rabs_pos (sin (INR N * t))). nra. }
  pose proof (vE_pos (- k) t). pose proof (Rabs_pos (iv N k * sin (INR (S N) * t) + iv (S N) k * sin (INR N * t))).
  pose proof (vr_pos iv k N H Hk). assert (0 <= 2 * iv N k * (1 + vr iv k N)) by nra.
  rewrite Rmult_assoc.
  replace (2 * k * iv N k * exp k * (1 + vr iv k N)) with (k * ((2 * iv N k * (1 + vr iv k N)) * exp k)) by ring.
  apply Rmult_le_compat_l; [lra|]. apply Rmult_le_compat; lra.
Qed.

Lemma vr_le1 iv k m : is_iv iv -> 0 < k -> vr iv k m <= 1.
Proof.
  intros H Hk. eapply Rle_trans; [apply (vr_dec iv k 0 m H Hk)|]. unfold vr. pose proof (i0_pos iv k H) as I0.
  pose proof (iv_abs iv 1 k H) as A. pose proof (Rle_abs (iv 1%nat k)).
  apply Rmult_le_reg_r with (iv 0%nat k); [exact I0|]. unfold Rdiv. rewrite Rmult_assoc, Rinv_l by lra. lra.
Qed.
(** The series converges to exp(k cos t), uniformly. *)
Lemma vS_close iv k eps : is_iv iv -> 0 < k -> 0 < eps -> exists N0, forall N, (N0 <= N)%nat ->
  forall t, - (2 * PI) <= t <= 2 * PI -> Rabs (vS iv k N t - vE k t) <= eps.
Proof.
  intros H Hk He. pose proof PI_pos as HPI. pose proof (exp_pos k) as Ek.
  set (d := eps / (2 * exp k * exp k)).
  assert (Hd : 0 < d) by (apply Rdiv_lt_0_compat; [exact He|nra]).
  destruct (iv_to_zero iv k (d / (8 * PI * k * exp k)) H Hk) as [N0 HN]; [apply Rdiv_lt_0_compat; [exact Hd|repeat (apply Rmult_lt_0_compat; try lra)]|].
  exists N0. intros N HNN. specialize (HN N HNN).
  assert (HB : 2 * k * iv N k * exp k * (2 * PI) * 2 <= d).
  { assert (P8 : 0 < 8 * PI * k * exp k) by (repeat (apply Rmult_lt_0_compat; try lra)).
    apply (Rmult_lt_compat_r _ _ _ P8) in HN. replace (d / (8 * PI * k * exp k) * (8 * PI * k * exp k)) with d in HN by (field; repeat split; lra). lra. }
  pose proof (iv_pos iv N k H Hk) as IN. pose proof (vr_le1 iv k N H Hk) as R1. pose proof (vr_pos iv k N H Hk) as R0.
  set (c := vS iv k N 0 * vE (- k) 0).
  assert (HB2 : forall l, 0 <= l <= 2 * PI -> 2 * k * iv N k * exp k * l * (1 + vr iv k N) <= d).
  { intros l Hl. eapply Rle_trans; [|exact HB].
    assert (P : 0 <= 2 * k * iv N k * exp k) by (repeat (apply Rmult_le_pos; try lra)).
    apply Rmult_le_compat; [apply Rmult_le_pos; lra|lra|apply Rmult_le_compat_l; lra|lra]. }
  assert (Flat : forall t, - (2 * PI) <= t <= 2 * PI -> Rabs (vS iv k N t * vE (- k) t - c) <= d).
  { intros t Ht. destruct (Rle_dec 0 t) as [L|L].
    - eapply Rle_trans; [apply (vS_flat iv k N 0 t H Hk L)|]. apply HB2. lra.
    - rewrite Rabs_minus_sym. eapply Rle_trans; [apply (vS_flat iv k N t 0 H Hk); lra|]. apply HB2. lra. }
  assert (Inv : forall t, vE (- k) t * vE k t = 1).
  { intros t. unfold vE. rewrite <- exp_plus. replace (- k * cos t + k * cos t) with 0 by ring. apply exp_0. }
  assert (Emax : forall t, vE k t <= exp k).
  { intros t. unfold vE. pose proof (COS_bound t). assert (L : k * cos t <= k) by nra.
    destruct L as [L|L]; [left; apply exp_increasing; exact L|rewrite L; right; reflexivity]. }
  assert (A : forall t, - (2 * PI) <= t <= 2 * PI -> Rabs (vS iv k N t - c * vE k t) <= d * exp k).
  { intros t Ht. replace (vS iv k N t - c * vE k t) with ((vS iv k N t * vE (- k) t - c) * vE k t) by (rewrite Rmult_minus_distr_r, Rmult_assoc, Inv; ring).
    rewrite Rabs_mult, (Rabs_right (vE k t)) by (left; apply vE_pos). apply Rmult_le_compat; [apply Rabs_pos|left; apply vE_pos|apply Flat; exact Ht|apply Emax]. }
  assert (IS : integral (vS iv k N) 0 (2 * PI) (2 * PI * iv 0%nat k)).
  { clear - H. pose proof PI_pos. induction N as [|N IH].
    - eapply (integral_ext (fun _ => iv 0%nat k)); [lra|intros t _; unfold vS; cbn; ring|]. eapply integral_val; [|apply integral_const]. ring.
    - eapply (integral_ext (fun t => vS iv k N t + 2 * iv (S N) k * cos (INR (S N) * t))); [lra|intros t _; rewrite vS_S; ring|].
      eapply integral_val; [|apply integral_lin; [exact IH|apply int_cos_n; lia]]. ring. }
  assert (ID : integral (fun t => vS iv k N t + (- c) * vE k t) 0 (2 * PI) (2 * PI * iv 0%nat k + (- c) * (2 * PI * iv 0%nat k))).
  { apply integral_lin; [exact IS|apply i0_int; exact H]. }
  assert (HC : Rabs (2 * PI * iv 0%nat k + (- c) * (2 * PI * iv 0%nat k)) <= d * exp k * (2 * PI - 0)).
  { apply (integral_abs (fun t => vS iv k N t + (- c) * vE k t) (fun _ => d * exp k) 0 (2 * PI)); [lra| |exact ID|apply integral_const].
    intros t Ht. replace (vS iv k N t + - c * vE k t) with (vS iv k N t - c * vE k t) by ring. apply A. lra. }
  assert (HC1 : Rabs (1 - c) <= d * exp k).
  { pose proof (i0_ge1 iv k H) as I0. replace (2 * PI * iv 0%nat k + - c * (2 * PI * iv 0%nat k)) with (2 * PI * iv 0%nat k * (1 - c)) in HC by ring.
    rewrite Rabs_mult, (Rabs_right (2 * PI * iv 0%nat k)) in HC by nra. pose proof (Rabs_pos (1 - c)).
    apply Rmult_le_reg_l with (2 * PI); [lra|]. assert (2 * PI * Rabs (1 - c) <= 2 * PI * iv 0%nat k * Rabs (1 - c)).
    { apply Rmult_le_compat_r; [lra|nra]. } lra. }
  intros t Ht. replace (vS iv k N t - vE k t) with ((vS iv k N t - c * vE k t) - (1 - c) * vE k t) by ring.
  eapply Rle_trans; [apply Rabs_triang|]. rewrite Rabs_Ropp, Rabs_mult, (Rabs_right (vE k t)) by (left; apply vE_pos).
  assert (B2 : Rabs (1 - c) * vE k t <= d * exp k * exp k).
  { apply Rmult_le_compat; [apply Rabs_pos|left; apply vE_pos|exact HC1|apply Emax]. }
  specialize (A t Ht).
  assert (Ex1 : 1 <= exp k) by (pose proof (exp_ineq1 k ltac:(lra)); lra).
  assert (Ee : eps = 2 * (d * exp k * exp k)) by (unfold d; field; lra).
  assert (d * exp k <= d * exp k * exp k) by (assert (0 < d * exp k) by (apply Rmult_lt_0_compat; lra); nra). lra.
Qed.

(** ** The integrated series *)
Definition vA (iv : nat -> R -> R) (k : R) (N : nat) (t : R) : R :=
  iv 0%nat k * t + 2 * Rsum (map (fun n => iv n k / INR n * sin (INR n * t)) (seq 1 N)).
Lemma vA_S iv k N t : vA iv k (S N) t = vA iv k N t + 2 * (iv (S N) k / INR (S N) * sin (INR (S N) * t)).
Proof.
  unfold vA. rewrite seq_S, map_app, Rsum_app. replace (1 + N)%nat with (S N) by lia.
  replace (map (fun n => iv n k / INR n * sin (INR n * t)) [S N]) with [iv (S N) k / INR (S N) * sin (INR (S N) * t)] by reflexivity.
  unfold Rsum at 2. cbn [fold_right]. ring.
Qed.
Lemma vA_d iv k N t : derivable_pt_lim (vA iv k N) t (vS iv k N t).
Proof.
  induction N as [|N IH].
  - apply (dlim_ext (fun t => iv 0%nat k * t)); [intros y; unfold vA; cbn; ring|]. eapply dlim_eq; [|apply dlim_mulc]. unfold vS; cbn; ring.
  - apply (dlim_ext (fun t => vA iv k N t + 2 * (iv (S N) k / INR (S N) * sin (INR (S N) * t)))); [intros y; symmetry; apply vA_S|].
    eapply dlim_eq; [|apply dlim_plus; [exact IH|apply dlim_scal; apply dlim_scal; apply sinn_d]]. rewrite vS_S.
    assert (INR (S N) <> 0) by (apply not_0_INR; lia). field. assumption.
Qed.
Lemma vA_int iv k N a b : is_iv iv -> a <= b -> integral (vS iv k N) a b (vA iv k N b - vA iv k N a).
Proof. intros H L. apply (ftc _ (vA iv k N)); [exact L|intros; apply vS_cont; exact H|intros; apply vA_d]. Qed.
Definition vtail (iv : nat -> R -> R) (k : R) (N j : nat) : R := Rsum (map (fun n => iv n k / INR n) (seq (S N) j)).
Lemma vtail_S iv k N j : vtail iv k N (S j) = vtail iv k N j + iv (S N + j)%nat k / INR (S N + j).
Proof.
  unfold vtail. rewrite seq_S, map_app, Rsum_app.
  replace (map (fun n => iv n k / INR n) [(S N + j)%nat]) with [iv (S N + j)%nat k / INR (S N + j)] by reflexivity.
  unfold Rsum at 2. cbn [fold_right]. ring.
Qed.
Lemma vA_tail iv k N j a b : is_iv iv -> 0 < k ->
  Rabs ((vA iv k (N + j) b - vA iv k (N + j) a) - (vA iv k N b - vA iv k N a)) <= 4 * vtail iv k N j.
Proof.
  intros H Hk. induction j as [|j IH].
  - rewrite Nat.add_0_r. unfold vtail. cbn [seq map]. unfold Rsum. cbn [fold_right]. rewrite Rminus_diag_eq by reflexivity. rewrite Rabs_R0. lra.
  - rewrite Nat.add_succ_r, !vA_S, vtail_S. replace (S N + j)%nat with (S (N + j)) by lia.
    set (w := iv (S (N + j)) k / INR (S (N + j))). assert (0 < w) by (apply Rdiv_lt_0_compat; [apply iv_pos; assumption|apply lt_0_INR; lia]).
    set (sb := sin (INR (S (N + j)) * b)). set (sa := sin (INR (S (N + j)) * a)).
    assert (-1 <= sb <= 1) by apply SIN_bound. assert (-1 <= sa <= 1) by apply SIN_bound.
    match goal with |- Rabs ?X <= _ => replace X with (((vA iv k (N + j) b - vA iv k (N + j) a) - (vA iv k N b - vA iv k N a)) + 2 * w * (sb - sa)) by ring end.
    eapply Rle_trans; [apply Rabs_triang|].
    assert (Rabs (2 * w * (sb - sa)) <= 4 * w) by (apply Rabs_le; split; nra). lra.
Qed.
(** The tail is bounded by the first omitted coefficient. *)
Lemma vtail_bound iv k N j r : is_iv iv -> 0 < k -> (1 <= N)%nat -> vr iv k N <= r -> r < 1 ->
  vtail iv k N j <= iv N k / INR N * (r / (1 - r)).
Proof.
  intros H Hk HN Hr Hr1. pose proof (vr_pos iv k N H Hk) as R0. pose proof (iv_pos iv N k H Hk) as IN.
  assert (PN : 0 < INR N) by (apply lt_0_INR; lia).
  assert (G : vtail iv k N j <= iv N k / INR N * (r * (1 - r ^ j) / (1 - r))).
  { induction j as [|j IH].
    - unfold vtail. cbn [seq map]. unfold Rsum. cbn [fold_right pow]. right. field. lra.
    - rewrite vtail_S. replace (S N + j)%nat with (N + S j)%nat by lia.
      assert (T : iv (N + S j)%nat k / INR (N + S j) <= iv N k / INR N * r ^ S j).
      { assert (PNj : INR N <= INR (N + S j)) by (apply le_INR; lia).
        pose proof (iv_geom iv k N (S j) H Hk) as Gm. assert (P : vr iv k N ^ S j <= r ^ S j) by (apply pow_incr; lra).
        pose proof (iv_pos iv (N + S j) k H Hk). pose proof (pow_lt r (S j) ltac:(lra)).
        replace (iv N k / INR N * r ^ S j) with (iv N k * r ^ S j * / INR N) by (unfold Rdiv; ring).
        unfold Rdiv. apply Rmult_le_compat; [lra|left; apply Rinv_0_lt_compat; lra| |apply Rinv_le_contravar; lra].
        eapply Rle_trans; [exact Gm|]. apply Rmult_le_compat_l; lra. }
      eapply Rle_trans; [apply Rplus_le_compat; [exact IH|exact T]|]. right. cbn [pow]. field. lra. }
  eapply Rle_trans; [exact G|]. apply Rmult_le_compat_l; [left; apply Rdiv_lt_0_compat; lra|].
  pose proof (pow_lt r j ltac:(lra)). unfold Rdiv. apply Rmult_le_compat_r; [left; apply Rinv_0_lt_compat; lra|nra].
Qed.
Lemma vA_err iv k N r a b v : is_iv iv -> 0 < k -> (1 <= N)%nat -> vr iv k N <= r -> r < 1 ->
  - (2 * PI) <= a -> a <= b -> b <= 2 * PI -> integral (vE k) a b v ->
  Rabs ((vA iv k N b - vA iv k N a) - v) <= 4 * (iv N k / INR N * (r / (1 - r))).
Proof.
  intros H Hk HN Hr Hr1 Ha Hab Hb Hv. apply le_epsilon. intros eps He.
  destruct (vS_close iv k (eps / (4 * PI + 1)) H Hk) as [N0 HC]; [apply Rdiv_lt_0_compat; [exact He|pose proof PI_pos; lra]|].
  pose proof PI_pos as HPI. specialize (HC (N + N0)%nat ltac:(lia)).
  assert (ID : integral (fun t => vS iv k (N + N0) t + (-1) * vE k t) a b ((vA iv k (N + N0) b - vA iv k (N + N0) a) + (-1) * v)).
  { apply integral_lin; [apply vA_int; assumption|exact Hv]. }
  assert (B : Rabs ((vA iv k (N + N0) b - vA iv k (N + N0) a) + (-1) * v) <= eps / (4 * PI + 1) * (b - a)).
  { apply (integral_abs _ (fun _ => eps / (4 * PI + 1)) a b _ _ Hab) with (2 := ID); [|apply integral_const].
    intros t Ht. replace (vS iv k (N + N0) t + -1 * vE k t) with (vS iv k (N + N0) t - vE k t) by ring. apply HC. lra. }
  assert (B2 : eps / (4 * PI + 1) * (b - a) <= eps).
  { replace eps with (eps / (4 * PI + 1) * (4 * PI + 1)) at 2 by (field; lra). apply Rmult_le_compat_l; [left; apply Rdiv_lt_0_compat; lra|lra]. }
  pose proof (vA_tail iv k N N0 a b H Hk) as T. pose proof (vtail_bound iv k N N0 r H Hk HN Hr Hr1) as T2.
  set (X := vA iv k (N + N0) b - vA iv k (N + N0) a) in *. set (Y := vA iv k N b - vA iv k N a) in *.
  replace (Y - v) with ((X + -1 * v) - (X - Y)) by ring. eapply Rle_trans; [apply Rabs_triang|]. rewrite Rabs_Ropp. lra.
Qed.
