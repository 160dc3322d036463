(** Concrete instances for the distribution theorems. *)
From Verif Require Import Prelude NpModel NpProofs CircleSpec IntSpec IntProofs DistModel DistSpec DistProofs Dist2Proofs Dist3Proofs Dist4Proofs
  Dist5Proofs Dist6Proofs Dist7Proofs Dist8Proofs.

Lemma ex_tri : tri_ok (1 / 4) = true.
Proof.
  pose proof PI_pos. pose proof PI_4. unfold tri_ok. apply andb_true_intro; split; apply Rleb_true; [lra|].
  assert (0 < PI ^ 2 <= 16) by (split; [apply pow_lt; lra|nra]).
  replace (1 / 4) with (4 * / 16) by field. unfold Rdiv. apply Rmult_le_compat_l; [lra|]. apply Rinv_le_contravar; lra.
Qed.
Lemma ex_car : car_ok (PI / 3) (1 / 3) = true.
Proof.
  pose proof PI_pos. unfold car_ok. repeat (apply andb_true_intro; split); apply Rleb_true; lra.
Qed.
Lemma ex_wc : wc_ok (PI / 3) (1 / 3) = true.
Proof.
  pose proof PI_pos. unfold wc_ok. repeat (apply andb_true_intro; split); try (apply Rleb_true); try (apply Rltb_true); lra.
Qed.
Lemma ex_wc_range : ftiny <= 1 / 3 <= 1 - / 10 ^ 15.
Proof.
  pose proof tiny15. split; [|lra]. apply Rle_trans with (/ 2 ^ 2); [|lra].
  unfold ftiny. apply Rinv_le_contravar; [apply pow_lt; lra|]. apply Rle_pow; [lra|lia].
Qed.

Definition ex_s : list (R * R) := [(0, 2); (PI, 1)].
Definition ex_root (f : R -> R) (a b : R) : R := 4 / (3 * PI ^ 2).
Lemma ex_c0 : tri_c 0 = PI ^ 2.
Proof. pose proof PI2_pos. pose proof PI_pos. unfold tri_c. rewrite pymod_small by lra. rewrite Rabs_right by lra. ring. Qed.
Lemma ex_cpi : tri_c PI = - PI ^ 2.
Proof.
  pose proof PI2_pos. pose proof PI_pos. unfold tri_c. rewrite pymod_small by lra.
  replace (PI - PI) with 0 by ring. rewrite Rabs_R0. ring.
Qed.
Lemma ex_score r : 0 <= r <= tri_hi -> tri_score ex_s r = PI ^ 2 * (4 - 3 * r * PI ^ 2) / ((4 + r * PI ^ 2) * (4 - r * PI ^ 2)).
Proof.
  intros H. pose proof (tri_fac_pos r 0 H) as A. pose proof (tri_fac_pos r PI H) as B. rewrite ex_c0 in A. rewrite ex_cpi in B.
  unfold tri_score, ex_s. cbn [map fst snd]. rewrite ex_c0, ex_cpi. unfold Rsum. cbn [fold_right]. field. lra.
Qed.
Lemma ex_root_in : 0 <= 4 / (3 * PI ^ 2) <= tri_hi.
Proof.
  pose proof PI_pos. pose proof PI_4. assert (Q : 0 < PI ^ 2 <= 16) by (split; [apply pow_lt; lra|nra]).
  assert (I : / 16 <= / PI ^ 2) by (apply Rinv_le_contravar; lra).
  assert (E : 4 / (3 * PI ^ 2) = 4 / 3 * / PI ^ 2) by (field; lra). rewrite E. unfold tri_hi.
  assert (T : 0 < / 10 ^ 12 < / 100) by (split; [apply Rinv_0_lt_compat|apply Rinv_lt_contravar]; lra).
  unfold Rdiv at 2. lra.
Qed.
Lemma ex_fit : tri_fit_mle ex_root ex_s = Ok (4 / (3 * PI ^ 2)) /\
  (0 < tri_score ex_s 0 -> tri_score ex_s tri_hi < 0 ->
   0 <= ex_root (tri_score ex_s) 0 tri_hi <= tri_hi /\ tri_score ex_s (ex_root (tri_score ex_s) 0 tri_hi) = 0).
Proof.
  pose proof tri_hi_range as [T1 T2]. pose proof PI_pos. pose proof PI_4.
  assert (Q : 0 < PI ^ 2 <= 16) by (split; [apply pow_lt; lra|nra]). pose proof ex_root_in as RI.
  split.
  - unfold tri_fit_mle.
    assert (E0 : existsb (fun p => Rltb (snd p) 0) ex_s = false).
    { cbn. destruct (Rltb_spec 2 0); [lra|]. destruct (Rltb_spec 1 0); [lra|]. reflexivity. }
    rewrite E0.
    assert (E1 : Rsum (map snd ex_s) = 3) by (cbn; ring). rewrite E1.
    destruct (Rleb_spec 3 0); [lra|].
    assert (S0 : 0 < tri_score ex_s 0).
    { rewrite ex_score by lra. replace (PI ^ 2 * (4 - 3 * 0 * PI ^ 2) / ((4 + 0 * PI ^ 2) * (4 - 0 * PI ^ 2))) with (PI ^ 2 / 4) by field. lra. }
    destruct (Rleb_spec (tri_score ex_s 0) 0); [lra|].
    assert (S1 : tri_score ex_s tri_hi < 0).
    { rewrite ex_score by lra.
      assert (T : 0 < / 10 ^ 12 < / 100) by (split; [apply Rinv_0_lt_compat|apply Rinv_lt_contravar]; lra).
      assert (K : tri_hi * PI ^ 2 = 4 - PI ^ 2 * / 10 ^ 12) by (unfold tri_hi; field; lra).
      assert (PI ^ 2 * / 10 ^ 12 <= 16 * / 100) by (apply Rmult_le_compat; lra).
      assert (0 < PI ^ 2 * / 10 ^ 12) by (apply Rmult_lt_0_compat; lra).
      replace (3 * tri_hi * PI ^ 2) with (3 * (tri_hi * PI ^ 2)) by ring. rewrite K.
      replace (PI ^ 2 * (4 - 3 * (4 - PI ^ 2 * / 10 ^ 12)) / ((4 + (4 - PI ^ 2 * / 10 ^ 12)) * (4 - (4 - PI ^ 2 * / 10 ^ 12))))
        with (- (PI ^ 2 * (8 - 3 * (PI ^ 2 * / 10 ^ 12)) / ((8 - PI ^ 2 * / 10 ^ 12) * (PI ^ 2 * / 10 ^ 12)))) by (field; split; lra).
      apply Ropp_lt_cancel. rewrite Ropp_involutive, Ropp_0. apply Rdiv_lt_0_compat; apply Rmult_lt_0_compat; lra. }
    destruct (Rleb_spec 0 (tri_score ex_s tri_hi)); [lra|]. reflexivity.
  - intros _ _. unfold ex_root. split; [exact RI|]. rewrite ex_score by exact RI.
    replace (4 - 3 * (4 / (3 * PI ^ 2)) * PI ^ 2) with 0 by (field; lra). unfold Rdiv. ring.
Qed.

(** Gradient objectives at interior points. *)
Lemma ex_grad : 0 < 1 / 3 < 1 / 2 /\ 0 < 1 / 3 < 1 - / 10 ^ 7 /\
  fst (car_grad [(PI / 2, 1)] 0 (1 / 3)) = - (2 / 3).
Proof.
  assert (T7 : 0 < / 10 ^ 7 < / 10) by (split; [apply Rinv_0_lt_compat|apply Rinv_lt_contravar]; lra).
  split; [lra|]. split; [lra|]. unfold car_grad. rewrite car_den_existsb by lra. cbn [fst map].
  unfold car_den, Rsum. cbn [fold_right fst snd]. rewrite Rminus_0_r, cos_PI2, sin_PI2. field.
Qed.
