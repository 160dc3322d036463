(** Watson's asymptotic p-value never exceeds one: a finite form of Jacobi's triple product. *)
From Verif Require Import Prelude NpModel NpProofs HypGofModel HypGofSpec HypGofProofs HypGof2Proofs HypGof3Proofs.

Section theta.
Variable q : R.
Hypothesis q_range : 0 < q < 1.
Definition om (k : nat) : R := 1 - q ^ (2 * k).
Lemma om_0 : om 0 = 0.
Proof. unfold om. simpl. ring. Qed.
Lemma om_pos k : 0 < om (S k).
Proof.
  unfold om. assert (q ^ (2 * S k) < 1); [|lra]. apply pow_lt_1_compat; [lra|lia].
Qed.
Lemma om_nonneg k : 0 <= om k.
Proof. destruct k; [rewrite om_0; lra|left; apply om_pos]. Qed.
Lemma om_le k l : (k <= l)%nat -> om k <= om l.
Proof.
  intros H. unfold om. assert (q ^ (2 * l) <= q ^ (2 * k)); [|lra].
  replace (2 * l)%nat with (2 * k + (2 * l - 2 * k))%nat by lia. rewrite pow_add.
  assert (0 < q ^ (2 * k)) by (apply pow_lt; lra).
  assert (q ^ (2 * l - 2 * k) <= 1). { rewrite <- (pow1 (2 * l - 2 * k)). apply pow_incr. lra. }
  nra.
Qed.
Fixpoint d (n j : nat) : R :=
  match j with 0%nat => 1 | S i => d n i * q ^ (2 * i + 1) * om (n - i) / om (n + i + 1) end.
Lemma om_ne k : (0 < k)%nat -> om k <> 0.
Proof. destruct k; [lia|]. intros _. pose proof (om_pos k). lra. Qed.
Lemma d_nonneg n j : 0 <= d n j.
Proof.
  induction j as [|i IH]; [simpl; lra|]. cbn [d]. replace (n + i + 1)%nat with (S (n + i)) by lia. unfold Rdiv.
  apply Rmult_le_pos; [apply Rmult_le_pos; [apply Rmult_le_pos; [exact IH|left; apply pow_lt; lra]|apply om_nonneg]|].
  left. apply Rinv_0_lt_compat, om_pos.
Qed.
Lemma d_step n j : d n (S j) <= d n j.
Proof.
  cbn [d]. pose proof (d_nonneg n j) as D. assert (P : 0 < q ^ (2 * j + 1)) by (apply pow_lt; lra).
  assert (P1 : q ^ (2 * j + 1) <= 1) by (rewrite <- (pow1 (2 * j + 1)); apply pow_incr; lra).
  assert (O : 0 < om (n + j + 1)) by (replace (n + j + 1)%nat with (S (n + j)) by lia; apply om_pos).
  assert (L : om (n - j) <= om (n + j + 1)) by (apply om_le; lia). pose proof (om_nonneg (n - j)) as N.
  apply Rmult_le_reg_r with (om (n + j + 1)); [exact O|]. unfold Rdiv. rewrite Rmult_assoc, Rinv_l by lra. rewrite Rmult_1_r.
  rewrite Rmult_assoc. apply Rmult_le_compat_l; [exact D|]. nra.
Qed.
Lemma d_zero n j : (n < j)%nat -> d n j = 0.
Proof.
  intros H. induction j as [|i IH]; [lia|]. cbn [d]. destruct (Nat.eq_dec n i) as [->|N].
  - rewrite Nat.sub_diag, om_0. unfold Rdiv. ring.
  - rewrite IH by lia. unfold Rdiv. ring.
Qed.
Lemma d_next n j : (j <= S n)%nat ->
  d (S n) j * om (S n - j) * om (S n + j) = om (S n) ^ 2 * d n j.
Proof.
  induction j as [|i IH]; intros H.
  - cbn [d]. rewrite Nat.sub_0_r, Nat.add_0_r. ring.
  - cbn [d]. specialize (IH ltac:(lia)).
    assert (O1 : om (S n + i + 1) <> 0) by (apply om_ne; lia). assert (O2 : om (n + i + 1) <> 0) by (apply om_ne; lia).
    replace (S n + S i)%nat with (S n + i + 1)%nat by lia. replace (S n - S i)%nat with (n - i)%nat by lia.
    replace (S n + i)%nat with (n + i + 1)%nat in IH by lia.
    replace (d (S n) i * q ^ (2 * i + 1) * om (S n - i) / om (S n + i + 1) * om (n - i) * om (S n + i + 1))
      with ((d (S n) i * om (S n - i) * om (n + i + 1)) * q ^ (2 * i + 1) * om (n - i) / om (n + i + 1)) by (field; auto).
    rewrite IH. field. exact O2.
Qed.
Definition kap (n : nat) : R := (1 - q ^ (4 * n + 2)) * (1 + q ^ (2 * n + 2)) / om (S n).
Lemma kap_pos n : 0 < kap n.
Proof.
  unfold kap. pose proof (om_pos n). assert (0 < q ^ (2 * n + 2)) by (apply pow_lt; lra).
  assert (q ^ (4 * n + 2) < 1) by (apply pow_lt_1_compat; [lra|lia]).
  apply Rdiv_lt_0_compat; [apply Rmult_lt_0_compat; lra|assumption].
Qed.
Lemma kap_0 n : kap n = 1 + q ^ (4 * n + 2) + 2 * q ^ (2 * n + 1) * d n 1.
Proof.
  cbn [d]. rewrite Nat.sub_0_r, Nat.add_0_r. replace (n + 1)%nat with (S n) by lia. change (2 * 0 + 1)%nat with 1%nat.
  pose proof (om_pos n) as O. unfold kap. apply Rmult_eq_reg_r with (om (S n)); [|lra]. field_simplify; [|lra|lra].
  unfold om. replace (2 * S n)%nat with (n + n + 2)%nat by lia. replace (4 * n + 2)%nat with (n + n + (n + n) + 2)%nat by lia.
  replace (2 * n + 1)%nat with (n + n + 1)%nat by lia. replace (2 * n + 2)%nat with (n + n + 2)%nat by lia.
  replace (2 * n)%nat with (n + n)%nat by lia. rewrite !pow_add. simpl (q ^ 1). simpl (q ^ 2). ring.
Qed.
Lemma kap_rec n j : (S j <= S n)%nat ->
  kap n * d (S n) (S j) = (1 + q ^ (4 * n + 2)) * d n (S j) + q ^ (2 * n + 1) * (d n j + d n (S (S j))).
Proof.
  intros H. destruct (Nat.eq_dec j n) as [->|N].
  - rewrite (d_zero n (S n)), (d_zero n (S (S n))) by lia. cbn [d].
    pose proof (d_next n n ltac:(lia)) as A. replace (S n - n)%nat with 1%nat in * by lia.
    assert (O1 : om (S n + n + 1) <> 0) by (apply om_ne; lia). assert (O2 : om (S n + n) <> 0) by (apply om_ne; lia).
    assert (O3 : om (S n) <> 0) by (apply om_ne; lia).
    unfold kap. replace (1 - q ^ (4 * n + 2)) with (om (S n + n)) by (unfold om; do 2 f_equal; lia).
    assert (E : om (S n + n + 1) = om (S n) * (1 + q ^ (2 * n + 2))).
    { unfold om. replace (2 * (S n + n + 1))%nat with ((2 * n + 2) + (2 * n + 2))%nat by lia.
      replace (2 * S n)%nat with (2 * n + 2)%nat by lia. rewrite pow_add. ring. }
    assert (O4 : 1 + q ^ (2 * n + 2) <> 0) by (assert (0 < q ^ (2 * n + 2)) by (apply pow_lt; lra); lra).
    rewrite E. replace (om (S n + n) * (1 + q ^ (2 * n + 2)) / om (S n) *
      (d (S n) n * q ^ (2 * n + 1) * om 1 / (om (S n) * (1 + q ^ (2 * n + 2)))))
      with ((d (S n) n * om 1 * om (S n + n)) * q ^ (2 * n + 1) / om (S n) ^ 2) by (field; auto).
    rewrite A. field. exact O3.
  - (* S j <= n *)
    set (e := (n - S j)%nat). assert (En : n = (S j + e)%nat) by (unfold e; lia).
    pose proof (d_next n (S j) ltac:(lia)) as A.
    assert (O0 : om (S n) <> 0) by (apply om_ne; lia).
    assert (O1 : om (S n - S j) <> 0) by (apply om_ne; lia). assert (O2 : om (S n + S j) <> 0) by (apply om_ne; lia).
    assert (O3 : om (n + S j) <> 0) by (apply om_ne; lia).
    assert (Q0 : q ^ (2 * j + 1) <> 0) by (apply pow_nonzero; lra).
    assert (B : d n j = d n (S j) * om (n + S j) / (q ^ (2 * j + 1) * om (S n - S j))).
    { cbn [d]. replace (n - j)%nat with (S n - S j)%nat by lia. replace (n + j + 1)%nat with (n + S j)%nat by lia. field. auto. }
    assert (Cc : d n (S (S j)) = d n (S j) * q ^ (2 * S j + 1) * om (n - S j) / om (S n + S j)).
    { cbn [d]. replace (n + S j + 1)%nat with (S n + S j)%nat by lia. reflexivity. }
    assert (A' : d (S n) (S j) = om (S n) ^ 2 * d n (S j) / (om (S n - S j) * om (S n + S j))) by (rewrite <- A; field; auto).
    rewrite A', B, Cc. set (D := d n (S j)). unfold kap.
    set (a := q ^ j) in *. set (b := q ^ e).
    assert (P : forall k, q ^ (2 * k) = q ^ k * q ^ k) by (intros k; replace (2 * k)%nat with (k + k)%nat by lia; apply pow_add).
    assert (X1 : om (S n) = 1 - (a * b * q ^ 2) ^ 2).
    { unfold om. rewrite P. replace (S n) with (j + e + 2)%nat by lia. rewrite !pow_add. fold a b. ring. }
    assert (X2 : om (S n - S j) = 1 - (b * q) ^ 2).
    { unfold om. rewrite P. replace (S n - S j)%nat with (e + 1)%nat by lia. rewrite !pow_add. fold b. ring. }
    assert (X3 : om (S n + S j) = 1 - (a ^ 2 * b * q ^ 3) ^ 2).
    { unfold om. rewrite P. replace (S n + S j)%nat with (j + j + e + 3)%nat by lia. rewrite !pow_add. fold a b. ring. }
    assert (X4 : om (n + S j) = 1 - (a ^ 2 * b * q ^ 2) ^ 2).
    { unfold om. rewrite P. replace (n + S j)%nat with (j + j + e + 2)%nat by lia. rewrite !pow_add. fold a b. ring. }
    assert (X5 : om (n - S j) = 1 - b ^ 2).
    { unfold om. rewrite P. replace (n - S j)%nat with e by lia. fold b. ring. }
    assert (Y1 : q ^ (4 * n + 2) = (a * b) ^ 4 * q ^ 6).
    { replace (4 * n + 2)%nat with (j + j + j + j + (e + e + e + e) + 6)%nat by lia. rewrite !pow_add. fold a b. ring. }
    assert (Y2 : q ^ (2 * n + 2) = (a * b) ^ 2 * q ^ 4).
    { replace (2 * n + 2)%nat with (j + j + (e + e) + 4)%nat by lia. rewrite !pow_add. fold a b. ring. }
    assert (Y3 : q ^ (2 * n + 1) = (a * b) ^ 2 * q ^ 3).
    { replace (2 * n + 1)%nat with (j + j + (e + e) + 3)%nat by lia. rewrite !pow_add. fold a b. ring. }
    assert (Y4 : q ^ (2 * j + 1) = a ^ 2 * q).
    { replace (2 * j + 1)%nat with (j + j + 1)%nat by lia. rewrite !pow_add. fold a. ring. }
    assert (Y5 : q ^ (2 * S j + 1) = a ^ 2 * q ^ 3).
    { replace (2 * S j + 1)%nat with (j + j + 3)%nat by lia. rewrite !pow_add. fold a. ring. }
    assert (Na : a <> 0) by (unfold a; apply pow_nonzero; lra).
    rewrite X1, X2, X3, X4, X5, Y1, Y2, Y3, Y4, Y5 in *.
    field. repeat split; auto; lra.
Qed.
Definition alt (f : nat -> R) (N : nat) : R := Rsum (map (fun j => (-1) ^ j * f j) (seq 1 N)).
Lemma alt_S f N : alt f (S N) = alt f N + (-1) ^ S N * f (S N).
Proof. unfold alt. rewrite seq_S, map_app, Rsum_app. cbn [map]. rewrite Rsum_cons, Rsum_nil. replace (1 + N)%nat with (S N) by lia. ring. Qed.
Lemma alt_pred f N : alt (fun j => f (j - 1)%nat) N = - f 0%nat - alt f N + (-1) ^ N * f N.
Proof.
  induction N as [|N IH]; [unfold alt; cbn [seq map]; rewrite Rsum_nil; simpl; ring|].
  rewrite !alt_S, IH. replace (S N - 1)%nat with N by lia. cbn [pow]. ring.
Qed.
Lemma alt_succ f N : alt (fun j => f (S j)) N = - f 1%nat - alt f N + (-1) ^ N * f (S N).
Proof.
  induction N as [|N IH]; [unfold alt; cbn [seq map]; rewrite Rsum_nil; simpl; ring|].
  rewrite !alt_S, IH. cbn [pow]. ring.
Qed.
Lemma alt_ext f g N : (forall j, (1 <= j <= N)%nat -> f j = g j) -> alt f N = alt g N.
Proof. intros H. apply Rsum_map_ext. intros j Hj. apply in_seq in Hj. rewrite H by lia. reflexivity. Qed.
Lemma alt_lin a b c f g h N : alt (fun j => a * f j + b * (g j + c * h j)) N = a * alt f N + b * (alt g N + c * alt h N).
Proof.
  induction N as [|N IH]; [unfold alt; cbn [seq map]; rewrite ?Rsum_nil; ring|]. rewrite !alt_S, IH. ring.
Qed.
Definition W (n N : nat) : R := 1 + 2 * alt (d n) N.
Lemma W_stable n N : (n <= N)%nat -> W n (S N) = W n N.
Proof. intros H. unfold W. rewrite alt_S, (d_zero n (S N)) by lia. ring. Qed.
Lemma W_eq n N : (n <= N)%nat -> W n N = W n n.
Proof.
  intros H. induction N as [|N IH]; [replace n with 0%nat by lia; reflexivity|].
  destruct (Nat.eq_dec n (S N)) as [->|]; [reflexivity|]. rewrite W_stable by lia. apply IH. lia.
Qed.
Lemma W_rec n : kap n * W (S n) (S n) = (1 - q ^ (2 * n + 1)) ^ 2 * W n n.
Proof.
  rewrite <- (W_eq n (S n)) by lia. unfold W. rewrite Rmult_plus_distr_l, Rmult_1_r.
  replace (kap n * (2 * alt (d (S n)) (S n))) with (2 * (kap n * alt (d (S n)) (S n))) by ring.
  replace (kap n * alt (d (S n)) (S n)) with (alt (fun j => kap n * d (S n) j) (S n)).
  2:{ unfold alt. rewrite <- Rsum_map_scal. apply Rsum_map_ext. intros; ring. }
  rewrite (alt_ext (fun j => kap n * d (S n) j)
    (fun j => (1 + q ^ (4 * n + 2)) * d n j + q ^ (2 * n + 1) * (d n (j - 1)%nat + 1 * d n (S j)))).
  2:{ intros j Hj. destruct j as [|j]; [lia|]. rewrite kap_rec by lia. replace (S j - 1)%nat with j by lia. ring. }
  rewrite (alt_lin (1 + q ^ (4 * n + 2)) (q ^ (2 * n + 1)) 1 (d n) (fun j => d n (j - 1)%nat) (fun j => d n (S j))).
  rewrite alt_pred, alt_succ, (d_zero n (S n)), (d_zero n (S (S n))) by lia. rewrite kap_0. change (d n 0) with 1.
  replace (q ^ (4 * n + 2)) with ((q ^ (2 * n + 1)) ^ 2).
  2:{ replace (4 * n + 2)%nat with ((2 * n + 1) * 2)%nat by lia. now rewrite pow_mult. }
  set (s := alt (d n) (S n)). set (x := q ^ (2 * n + 1)). ring.
Qed.
Lemma W_nonneg n : 0 <= W n n.
Proof.
  induction n as [|n IH]; [unfold W, alt; cbn [seq map]; rewrite Rsum_nil; lra|].
  pose proof (kap_pos n) as K. pose proof (W_rec n) as E. pose proof (pow2_ge_0 (1 - q ^ (2 * n + 1))) as S2.
  destruct (Rle_lt_dec 0 (W (S n) (S n))) as [H|H]; [exact H|]. nra.
Qed.
Lemma alt_even_tail n M k : alt (d n) (2 * (M + k)) <= alt (d n) (2 * M).
Proof.
  induction k as [|k IH]; [rewrite Nat.add_0_r; lra|].
  replace (2 * (M + S k))%nat with (S (S (2 * (M + k)))) by lia. rewrite !alt_S.
  assert (E : (-1) ^ (2 * (M + k)) = 1) by (rewrite pow_mult; replace ((-1) ^ 2) with 1 by ring; apply pow1).
  cbn [pow] in *. rewrite E. pose proof (d_step n (S (2 * (M + k)))). lra.
Qed.
Lemma W_even n M : 0 <= W n (2 * M).
Proof.
  pose proof (W_nonneg n) as H. pose proof (W_eq n (2 * (M + n)) ltac:(lia)) as E. pose proof (alt_even_tail n M n) as T.
  unfold W in *. lra.
Qed.
Lemma pow_cv k : Un_cv (fun n => q ^ (2 * (n - k))) 0.
Proof.
  intros eps He. destruct (pow_lt_1_zero q) with (y := eps) as [N HN]; [rewrite Rabs_pos_eq; lra|exact He|].
  exists (N + k)%nat. intros n Hn. unfold R_dist. rewrite Rminus_0_r. apply HN. lia.
Qed.
Lemma pow_cv' k : Un_cv (fun n => q ^ (2 * (n + k + 1))) 0.
Proof.
  intros eps He. destruct (pow_lt_1_zero q) with (y := eps) as [N HN]; [rewrite Rabs_pos_eq; lra|exact He|].
  exists N. intros n Hn. unfold R_dist. rewrite Rminus_0_r. apply HN. lia.
Qed.
Lemma cv_const (c : R) : Un_cv (fun _ => c) c.
Proof. intros eps He. exists 0%nat. intros. unfold R_dist. rewrite Rminus_diag_eq, Rabs_R0 by reflexivity. exact He. Qed.
Lemma cv_ext (u v : nat -> R) l : (forall n, u n = v n) -> Un_cv u l -> Un_cv v l.
Proof. intros E H eps He. destruct (H eps He) as [N HN]. exists N. intros n Hn. rewrite <- E. apply HN, Hn. Qed.
Lemma om_cv k : Un_cv (fun n => om (n - k)) 1.
Proof. unfold om. replace 1 with (1 - 0) at 1 by ring. apply CV_minus; [apply cv_const|apply pow_cv]. Qed.
Lemma om_cv' k : Un_cv (fun n => om (n + k + 1)) 1.
Proof. unfold om. replace 1 with (1 - 0) at 1 by ring. apply CV_minus; [apply cv_const|apply pow_cv']. Qed.
Lemma inv_cv k : Un_cv (fun n => / om (n + k + 1)) 1.
Proof.
  intros eps He. assert (He' : 0 < Rmin (eps / 2) (/ 2)) by (apply Rmin_pos; lra).
  destruct (om_cv' k _ He') as [N HN]. exists N. intros n Hn. specialize (HN n Hn). unfold R_dist in *.
  assert (O : 0 < om (n + k + 1)) by (replace (n + k + 1)%nat with (S (n + k)) by lia; apply om_pos).
  set (x := om (n + k + 1)) in *. pose proof (Rmin_l (eps / 2) (/ 2)) as L1. pose proof (Rmin_r (eps / 2) (/ 2)) as L2.
  assert (A : Rabs (x - 1) < eps / 2) by lra. assert (B : Rabs (x - 1) < / 2) by lra.
  apply Rabs_def2 in B. replace (/ x - 1) with ((1 - x) * / x) by (field; lra).
  rewrite Rabs_mult, (Rabs_pos_eq (/ x)) by (left; apply Rinv_0_lt_compat; lra). rewrite Rabs_minus_sym in A.
  assert (/ x < 2) by (apply Rmult_lt_reg_r with x; [lra|]; rewrite Rinv_l by lra; lra).
  assert (0 < / x) by (apply Rinv_0_lt_compat; lra). pose proof (Rabs_pos (1 - x)). nra.
Qed.
Lemma d_cv j : Un_cv (fun n => d n j) (q ^ (j ^ 2)).
Proof.
  induction j as [|i IH]; [exact (cv_const 1)|].
  apply (cv_ext (fun n => d n i * (q ^ (2 * i + 1) * (om (n - i) * / om (n + i + 1))))).
  - intros n. cbn [d]. unfold Rdiv. ring.
  - replace (q ^ (S i ^ 2)) with (q ^ (i ^ 2) * (q ^ (2 * i + 1) * (1 * 1))).
    + apply CV_mult; [exact IH|]. apply CV_mult; [apply cv_const|]. apply CV_mult; [apply om_cv|apply inv_cv].
    + rewrite !Rmult_1_r, <- pow_add. f_equal. simpl. lia.
Qed.
Lemma W_cv N : Un_cv (fun n => W n N) (1 + 2 * alt (fun j => q ^ (j ^ 2)) N).
Proof.
  unfold W. apply CV_plus; [apply cv_const|]. apply CV_mult; [apply cv_const|].
  induction N as [|N IH]; [exact (cv_const 0)|].
  rewrite alt_S. apply (cv_ext (fun n => alt (d n) N + (-1) ^ S N * d n (S N))); [intros n; now rewrite alt_S|].
  apply CV_plus; [exact IH|]. apply CV_mult; [apply cv_const|apply d_cv].
Qed.
Lemma cv_nonneg (u : nat -> R) l : Un_cv u l -> (forall n, 0 <= u n) -> 0 <= l.
Proof.
  intros H P. destruct (Rle_lt_dec 0 l) as [L|L]; [exact L|]. exfalso. destruct (H (- l)) as [N HN]; [lra|].
  specialize (HN N (Nat.le_refl N)). specialize (P N). unfold R_dist in HN. apply Rabs_def2 in HN. lra.
Qed.
Lemma theta_nonneg M : 0 <= 1 + 2 * alt (fun j => q ^ (j ^ 2)) (2 * M).
Proof. apply (cv_nonneg (fun n => W n (2 * M))); [apply W_cv|]. intros n. apply W_even. Qed.
End theta.

Lemma exp_pow_nat x n : exp x ^ n = exp (INR n * x).
Proof.
  induction n as [|n IH]; [simpl; rewrite Rmult_0_l, exp_0; reflexivity|].
  cbn [pow]. rewrite IH, <- exp_plus, S_INR. f_equal. ring.
Qed.
Lemma watson_asym_le1 U2 : 0 < U2 -> watson_asym U2 <= 1.
Proof.
  intros HU. set (q := exp (- 2 * PI ^ 2 * U2)).
  assert (Hq : 0 < q < 1).
  { split; [apply exp_pos|]. unfold q. rewrite <- exp_0. apply exp_increasing. pose proof PI_pos as Hp.
    assert (0 < PI ^ 2 * U2) by (apply Rmult_lt_0_compat; [apply pow_lt, Hp|exact HU]). lra. }
  pose proof (theta_nonneg q Hq 25) as T. unfold alt in T. change (2 * 25)%nat with 50%nat in T.
  unfold watson_asym. rewrite (Rsum_map_ext _ (fun m => -1 * ((-1) ^ m * q ^ (m ^ 2)))).
  - rewrite Rsum_map_scal. lra.
  - intros m Hm. apply in_seq in Hm. unfold q. rewrite exp_pow_nat. destruct m as [|m]; [lia|].
    replace (S m - 1)%nat with m by lia. rewrite pow_INR.
    replace (INR (S m) ^ 2 * (- 2 * PI ^ 2 * U2)) with (- 2 * INR (S m) ^ 2 * PI ^ 2 * U2) by ring.
    change ((-1) ^ S m) with (-1 * (-1) ^ m). ring.
Qed.
Lemma watson_test_prob a : a <> [] ->
  exists t, watson_test a 1 [] = Ok t /\ gof_sim t = false /\ 0 < gof_pval t <= 1 /\
    gof_pval t < 2 * exp (- 2 * PI ^ 2 * gof_stat t).
Proof.
  intros Ha. unfold watson_test. cbn [Z.leb Z.compare Z.eqb Pos.eqb]. rewrite nonempty_eqb by exact Ha.
  eexists. split; [reflexivity|]. split; [reflexivity|]. cbn [gof_pval gof_stat].
  pose proof (watson_asym_bounds _ (watson_U2_pos a Ha)). pose proof (watson_asym_le1 _ (watson_U2_pos a Ha)). tauto.
Qed.
