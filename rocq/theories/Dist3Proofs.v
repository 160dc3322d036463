(** Proofs about cardioid: the quantile solver. *)
From Verif Require Import Prelude NpModel NpProofs CircleSpec IntSpec IntProofs DistModel DistSpec DistProofs Dist2Proofs.

Lemma car_delta_eq mu rho q t : car_delta mu rho q t = car_cdf mu rho t - q.
Proof. reflexivity. Qed.

Lemma car_lip mu rho a b : 0 <= rho <= 1 / 2 -> a <= b ->
  0 <= car_cdf mu rho b - car_cdf mu rho a <= (b - a) / PI.
Proof.
  intros H Hab. pose proof PI_pos as Hp. split.
  - assert (car_cdf mu rho a <= car_cdf mu rho b); [|lra].
    apply (mono_of_dlim (car_cdf mu rho) (car_pdf mu rho) a b); try lra.
    + intros. apply car_cdf_d.
    + intros. apply car_pdf_nonneg; assumption.
  - assert (K : a / PI - car_cdf mu rho a <= b / PI - car_cdf mu rho b).
    { apply (mono_of_dlim (fun x => x / PI - car_cdf mu rho x) (fun x => 1 / PI - car_pdf mu rho x) a b); try lra.
      - intros. apply dlim_minus; [apply dlim_divc; apply dlim_id|apply car_cdf_d].
      - intros x Hx. unfold car_pdf. pose proof (COS_bound (x - mu)).
        replace (1 / PI - (1 + 2 * rho * cos (x - mu)) / 2 / PI)
          with ((1 - 2 * rho * cos (x - mu)) / (2 * PI)) by (field; lra).
        apply Rmult_le_pos; [nra|apply Rlt_le, Rinv_0_lt_compat; lra]. }
    unfold Rdiv in *. nra.
Qed.

Lemma car_newton_range mu rho q n h t : 0 <= t < 2 * PI -> 0 <= car_newton mu rho q n h t < 2 * PI.
Proof.
  pose proof PI2_pos as Hp. revert h t. induction n as [|n IH]; intros h t Ht; cbn; [exact Ht|].
  destruct (Rleb _ _); [exact Ht|]. apply IH. apply pymod_range. exact Hp.
Qed.

Lemma car_bisect_inv mu rho q n : forall low high,
  low < high -> car_cdf mu rho low <= q <= car_cdf mu rho high ->
  let (l, h) := car_bisect mu rho q n low high in
  low <= l < h /\ h <= high /\ car_cdf mu rho l <= q <= car_cdf mu rho h /\
  h - l = (high - low) / 2 ^ n.
Proof.
  induction n as [|n IH]; intros low high Hlt Hq; cbn [car_bisect].
  - repeat split; try lra.
  - change ((1 / 2 * (low + high) + 2 * rho * (sin (1 / 2 * (low + high) - mu) + sin mu)) / (2 * PI))
      with (car_cdf mu rho (1 / 2 * (low + high))).
    destruct (Rleb_spec (car_cdf mu rho (1 / 2 * (low + high))) q) as [L|L].
    + specialize (IH (1 / 2 * (low + high)) high ltac:(lra) ltac:(lra)).
      destruct (car_bisect mu rho q n (1 / 2 * (low + high)) high) as [l h].
      destruct IH as (A & B & C & D). repeat split; try lra. rewrite D. cbn. field. apply pow_nonzero. lra.
    + specialize (IH low (1 / 2 * (low + high)) ltac:(lra) ltac:(lra)).
      destruct (car_bisect mu rho q n low (1 / 2 * (low + high))) as [l h].
      destruct IH as (A & B & C & D). repeat split; try lra. rewrite D. cbn. field. apply pow_nonzero. lra.
Qed.

Lemma car_solve_spec mu rho q : 0 <= rho <= 1 / 2 -> 0 <= q <= 1 ->
  0 <= car_solve mu rho q <= 2 * PI /\ Rabs (car_cdf mu rho (car_solve mu rho q) - q) <= / 2 ^ 32.
Proof.
  intros Hr Hq. pose proof PI_pos as Hp. unfold car_solve.
  set (tol := / 2 ^ 32).
  assert (T : 0 < tol) by (apply Rinv_0_lt_compat; apply pow_lt; lra).
  assert (T11 : 10 * / 10 ^ 12 <= tol).
  { unfold tol. replace (10 * / 10 ^ 12) with (/ 10 ^ 11) by (field; lra). apply Rinv_le_contravar; lra. }
  assert (T12 : 0 < / 10 ^ 12) by (apply Rinv_0_lt_compat; lra).
  unfold isclose_tol. destruct (Rleb_spec (Rabs (q - 1)) (/ 10 ^ 12 + 0 * Rabs 1)) as [C|C].
  { split; [lra|]. rewrite car_cdf_2pi. rewrite <- Rabs_Ropp.
    replace (- (1 - q)) with (q - 1) by ring. lra. }
  assert (Hq1 : q < 1).
  { destruct (Req_dec q 1) as [->|]; [|lra]. exfalso. apply C.
    rewrite Rminus_diag_eq, Rabs_R0 by reflexivity. lra. }
  destruct (close_0 (/ 10 ^ 15) rho) eqn:Z.
  { apply close_0_true in Z; [|lra]. split; [nra|].
    unfold car_cdf. pose proof (SIN_bound (2 * PI * q - mu)). pose proof (SIN_bound mu).
    replace ((2 * PI * q + 2 * rho * (sin (2 * PI * q - mu) + sin mu)) / (2 * PI) - q)
      with (rho * ((sin (2 * PI * q - mu) + sin mu) / PI)) by (field; lra).
    rewrite Rabs_mult, (Rabs_pos_eq rho) by lra.
    assert (PI1 : 1 < PI) by (pose proof PI2_1; lra).
    assert (Rabs ((sin (2 * PI * q - mu) + sin mu) / PI) <= 2).
    { unfold Rdiv. rewrite Rabs_mult. rewrite (Rabs_pos_eq (/ PI)) by (apply Rlt_le, Rinv_0_lt_compat; lra).
      assert (Rabs (sin (2 * PI * q - mu) + sin mu) <= 2) by (apply Rabs_le; lra).
      assert (/ PI <= 1).
      { rewrite <- Rinv_1. apply Rinv_le_contravar; lra. }
      assert (0 < / PI) by (apply Rinv_0_lt_compat; lra).
      pose proof (Rabs_pos (sin (2 * PI * q - mu) + sin mu)). nra. }
    assert (2 * / 10 ^ 15 <= tol).
    { eapply Rle_trans; [|exact T11]. assert (/ 10 ^ 15 <= / 10 ^ 12) by (apply Rinv_le_contravar; lra). lra. }
    pose proof (Rabs_pos ((sin (2 * PI * q - mu) + sin mu) / PI)). nra. }
  set (t0 := pymod (mu + 2 * PI * (q - 1 / 2)) (2 * PI)).
  assert (Ht0 : 0 <= t0 < 2 * PI) by (apply pymod_range; lra).
  set (h := Rltb (1 / 4) rho).
  set (t := car_newton mu rho q (if h then 6 else 3)%nat h t0).
  assert (Ht : 0 <= t < 2 * PI) by (apply car_newton_range; exact Ht0).
  destruct (Rltb_spec (10 * / 10 ^ 12) (Rabs (car_delta mu rho q t))) as [L|L].
  - pose proof (car_bisect_inv mu rho q 32 0 (2 * PI)) as B.
    rewrite car_cdf_0, car_cdf_2pi in B. specialize (B ltac:(lra) ltac:(lra)).
    destruct (car_bisect mu rho q 32 0 (2 * PI)) as [l u]. destruct B as (B1 & B2 & B3 & B4).
    rewrite pymod_small by lra. split; [lra|].
    pose proof (car_lip mu rho l (1 / 2 * (l + u)) Hr ltac:(lra)) as [A1 A2].
    pose proof (car_lip mu rho (1 / 2 * (l + u)) u Hr ltac:(lra)) as [A3 A4].
    assert (W : (u - l) / 2 / PI = tol).
    { rewrite B4. unfold tol. field. lra. }
    replace (1 / 2 * (l + u) - l) with ((u - l) / 2) in A2 by field.
    replace (u - 1 / 2 * (l + u)) with ((u - l) / 2) in A4 by field.
    rewrite W in A2, A4. apply Rabs_le. lra.
  - rewrite pymod_small by exact Ht. split; [lra|]. rewrite car_delta_eq in L. lra.
Qed.

Lemma car_cdf_turn mu m rho x : same_dir m mu -> car_cdf m rho x = car_cdf mu rho x.
Proof.
  intros S. unfold car_cdf. rewrite (same_dir_sin m mu S).
  rewrite (same_dir_sin (x - m) (x - mu)); [reflexivity|].
  apply same_dir_sub; [apply same_dir_refl|exact S].
Qed.

Lemma car_inverse mu rho q : car_ok mu rho = true -> 0 <= q <= 1 ->
  exists x p, public_ppf (car_ok mu rho) (car_ppf mu rho) q = Fin x /\ 0 <= x <= 2 * PI /\
    public_cdf (car_ok mu rho) (car_cdf mu rho) x = Fin p /\ Rabs (p - q) <= / 2 ^ 32.
Proof.
  intros Hok Hq. rewrite Hok. apply car_ok_spec in Hok. destruct Hok as [H1 H2].
  pose proof PI_pos as Hp.
  assert (T : 0 < / 2 ^ 32) by (apply Rinv_0_lt_compat; apply pow_lt; lra).
  assert (C : forall x, 0 <= x <= 2 * PI -> public_cdf true (car_cdf mu rho) x = Fin (car_cdf mu rho x)).
  { intros x Hx. rewrite public_cdf_fin. f_equal.
    apply (pub_F_eq _ (car_cdf mu rho)); try exact Hx; [apply car_cdf_0|apply car_cdf_2pi|reflexivity]. }
  unfold public_ppf. cbn [negb].
  destruct (Rltb_spec 0 q), (Rltb_spec q 1); cbn [andb].
  - destruct (car_solve_spec (pymod mu (2 * PI)) rho q H2 Hq) as [A B].
    exists (car_ppf mu rho q), (car_cdf mu rho (car_ppf mu rho q)).
    split; [reflexivity|]. split; [exact A|]. split; [apply C; exact A|].
    rewrite <- (car_cdf_turn mu (pymod mu (2 * PI))); [exact B|]. apply pymod_same_dir.
  - exists (2 * PI), 1. destruct (Reqb_spec q 0); [lra|]. destruct (Reqb_spec q 1); [|lra].
    split; [reflexivity|]. split; [lra|]. rewrite C by lra. rewrite car_cdf_2pi. split; [reflexivity|].
    subst q. rewrite Rminus_diag_eq, Rabs_R0 by reflexivity. lra.
  - exists 0, 0. destruct (Reqb_spec q 0); [|lra].
    split; [reflexivity|]. split; [lra|]. rewrite C by lra. rewrite car_cdf_0. split; [reflexivity|].
    subst q. rewrite Rminus_diag_eq, Rabs_R0 by reflexivity. lra.
  - lra.
Qed.
