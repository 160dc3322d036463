(** The flat-topped density with nu = 0 is the von Mises density up to a tiny factor. *)
From Verif Require Import Prelude NpModel NpProofs CircleSpec IntSpec IntProofs DistModel DistSpec DistProofs Dist2Proofs Dist4Proofs Dist5Proofs
  Dist6Proofs Dist7Proofs KjProofs Kj2Proofs VonModel VonSpec VonProofs Von2Proofs Von3Proofs Von4Proofs JpProofs Jp3Proofs Jp4Proofs Wn6Proofs FtModel FtSpec FtProofs Ft2Proofs.

(** ** The tail of the exponential series *)
Definition ea (m : nat) : R := 100 ^ m / INR (fact m).
Lemma ea_S m : ea (S m) = ea m * (100 / INR (S m)).
Proof. unfold ea. rewrite fact_simpl, mult_INR. cbn [pow]. pose proof (INR_fact_neq_0 m). pose proof (not_0_INR (S m) ltac:(lia)). field. split; assumption. Qed.
Lemma ea_pos m : 0 < ea m.
Proof. unfold ea. apply Rdiv_lt_0_compat; [apply pow_lt; lra|apply INR_fact_lt_0]. Qed.
Lemma ea_half m : (200 <= m)%nat -> ea (S m) <= ea m / 2.
Proof.
  intros H. rewrite ea_S. pose proof (ea_pos m). assert (100 / INR (S m) <= 1 / 2); [|nra].
  assert (200 <= INR (S m)) by (replace 200 with (INR 200) by (rewrite INR_IZR_INZ; reflexivity); apply le_INR; lia).
  apply Rmult_le_reg_r with (INR (S m)); [lra|]. unfold Rdiv. rewrite Rmult_assoc, Rinv_l by lra. lra.
Qed.
Lemma ea_halves k : ea (200 + k) <= ea 200 * (1 / 2) ^ k.
Proof.
  induction k as [|k IH]; [rewrite Nat.add_0_r; cbn [pow]; lra|]. rewrite Nat.add_succ_r. pose proof (ea_half (200 + k) ltac:(lia)). cbn [pow]. lra.
Qed.
Lemma ea_le_exp m : ea m <= exp 100.
Proof.
  assert (H : ea m <= sum_f_R0 (fun i => / INR (fact i) * 100 ^ i) m).
  { destruct m as [|m]; [unfold ea; cbn; lra|]. rewrite tech5. unfold ea. assert (0 <= sum_f_R0 (fun i => / INR (fact i) * 100 ^ i) m); [|unfold Rdiv; lra].
    apply cond_pos_sum. intros k. apply Rmult_le_pos; [left; apply Rinv_0_lt_compat, INR_fact_lt_0|apply pow_le; lra]. }
  eapply Rle_trans; [exact H|]. unfold exp. destruct (exist_exp 100) as [l Hl]. cbn [proj1_sig].
  apply (growing_ineq (fun n => sum_f_R0 (fun i => / INR (fact i) * 100 ^ i) n)).
  - intros n. rewrite tech5. assert (0 <= / INR (fact (S n)) * 100 ^ S n) by (apply Rmult_le_pos; [left; apply Rinv_0_lt_compat, INR_fact_lt_0|apply pow_le; lra]). lra.
  - intros eps He. destruct (Hl eps He) as [n0 H0]. exists n0. exact H0.
Qed.
Lemma ea_512 : ea 512 <= / 10 ^ 20.
Proof.
  pose proof (ea_halves 312) as H. change (200 + 312)%nat with 512%nat in H. pose proof (ea_le_exp 200) as E.
  assert (E2 : exp 100 <= 3 ^ 100).
  { replace (exp 100) with (exp 1 ^ 100) by (rewrite Wn3Proofs.exp_pow; f_equal; rewrite INR_IZR_INZ; cbn; ring).
    apply pow_incr. split; [left; apply exp_pos|apply exp_le_3]. }
  assert (Q : (3 ^ 100 * (1 / 2) ^ 312) <= / 10 ^ 20).
  { replace ((1 / 2) ^ 312) with (/ 2 ^ 312) by (replace (1 / 2) with (/ 2) by field; rewrite pow_inv; reflexivity).
    apply Rmult_le_reg_r with (2 ^ 312 * 10 ^ 20); [apply Rmult_lt_0_compat; apply pow_lt; lra|].
    replace (3 ^ 100 * / 2 ^ 312 * (2 ^ 312 * 10 ^ 20)) with (3 ^ 100 * 10 ^ 20) by (field; apply pow_nonzero; lra).
    replace (/ 10 ^ 20 * (2 ^ 312 * 10 ^ 20)) with (2 ^ 312) by (field; apply pow_nonzero; lra).
    rewrite !pow_IZR, <- mult_IZR. apply IZR_le. vm_compute. discriminate. }
  assert (0 < (1 / 2) ^ 312) by (apply pow_lt; lra). nra.
Qed.
Definition epoly (n : nat) (x : R) : R := sum_f_R0 (fun i => / INR (fact i) * x ^ i) n.
Lemma epoly_tail x : Rabs x <= 100 -> forall k, Rabs (epoly (511 + k) x - epoly 511 x) <= 2 * ea 512 - 2 * ea (512 + k).
Proof.
  intros Hx. induction k as [|k IH].
  - rewrite !Nat.add_0_r. unfold Rminus. rewrite Rplus_opp_r, Rabs_R0. lra.
  - rewrite !Nat.add_succ_r. unfold epoly at 1. rewrite tech5. fold (epoly (511 + k) x).
    replace (S (511 + k)) with (512 + k)%nat by lia. pose proof (ea_half (512 + k) ltac:(lia)) as Hh.
    assert (T : Rabs (/ INR (fact (512 + k)) * x ^ (512 + k)) <= ea (512 + k)).
    { rewrite Rabs_mult, <- RPow_abs, (Rabs_pos_eq (/ _)) by (left; apply Rinv_0_lt_compat, INR_fact_lt_0). unfold ea, Rdiv. rewrite Rmult_comm.
      apply Rmult_le_compat_r; [left; apply Rinv_0_lt_compat, INR_fact_lt_0|]. apply pow_incr. split; [apply Rabs_pos|exact Hx]. }
    replace (epoly (511 + k) x + / INR (fact (512 + k)) * x ^ (512 + k) - epoly 511 x) with ((epoly (511 + k) x - epoly 511 x) + / INR (fact (512 + k)) * x ^ (512 + k)) by ring.
    eapply Rle_trans; [apply Rabs_triang|]. lra.
Qed.
Lemma epoly_near x : Rabs x <= 100 -> Rabs (exp x - epoly 511 x) <= 3 / 10 ^ 20.
Proof.
  intros Hx. pose proof ea_512 as E. apply Rnot_lt_le. intros C.
  assert (L : infinite_sum (fun i => / INR (fact i) * x ^ i) (exp x)) by (unfold exp; destruct (exist_exp x) as [l Hl]; exact Hl).
  destruct (L (/ 10 ^ 20) ltac:(apply Rinv_0_lt_compat, pow_lt; lra)) as [n0 H0].
  specialize (H0 (511 + n0)%nat ltac:(lia)). unfold R_dist in H0. fold (epoly (511 + n0) x) in H0.
  pose proof (epoly_tail x Hx n0) as T. pose proof (ea_pos (512 + n0)).
  assert (Rabs (exp x - epoly 511 x) <= Rabs (epoly (511 + n0) x - exp x) + Rabs (epoly (511 + n0) x - epoly 511 x)).
  { replace (exp x - epoly 511 x) with (- (epoly (511 + n0) x - exp x) + (epoly (511 + n0) x - epoly 511 x)) by ring.
    eapply Rle_trans; [apply Rabs_triang|]. rewrite Rabs_Ropp. lra. }
  unfold Rdiv in *. lra.
Qed.

(** ** Sums of polynomials in the cosine are exact *)
Lemma epoly_as_harm k n t : epoly n (k * cos t) = sum_f_R0 (fun i => / INR (fact i) * k ^ i * harm i 0 t) n.
Proof. unfold epoly. apply sum_eq. intros i _. unfold harm. cbn [INR]. rewrite Rmult_0_l, cos_0, Rpow_mult_distr. ring. Qed.
Lemma epoly_sum N k : (512 <= N)%nat -> forall n, (n <= 511)%nat -> exists w,
  integral (fun t => epoly n (k * cos t)) 0 (2 * PI) w /\ 2 * PI / INR N * Rsum (map (fun j => epoly n (k * cos (node N j))) (seq 0 N)) = w.
Proof.
  intros HN. pose proof PI_gt3. induction n as [|n IH]; intros Hn.
  - destruct (continuous_integral (harm 0 0) 0 (2 * PI)) as [v V]; [lra|intros; apply harm_cont|]. exists v. split.
    + refine (integral_ext _ _ _ _ _ _ _ V); [lra|]. intros x _. rewrite epoly_as_harm. cbn. field.
    + rewrite <- (harm_sum N 0 0 v ltac:(lia) V). f_equal. apply Rsum_ext_map. intros j _. rewrite epoly_as_harm. cbn. field.
  - destruct (IH ltac:(lia)) as (w & W & E). destruct (continuous_integral (harm (S n) 0) 0 (2 * PI)) as [v V]; [lra|intros; apply harm_cont|].
    set (c := / INR (fact (S n)) * k ^ S n).
    assert (Q : forall t, epoly (S n) (k * cos t) = epoly n (k * cos t) + c * harm (S n) 0 t) by (intros t; rewrite !epoly_as_harm, tech5; reflexivity).
    exists (w + c * v). split.
    + refine (integral_ext _ _ _ _ _ _ _ (integral_lin _ (harm (S n) 0) _ _ c _ _ W V)); [lra|]. intros x _. rewrite Q. reflexivity.
    + rewrite <- E, <- (harm_sum N (S n) 0 v ltac:(lia) V). rewrite (Rsum_ext_map _ (fun j => epoly n (k * cos (node N j)) + c * harm (S n) 0 (node N j))) by (intros; apply Q).
      rewrite Rsum_plus_map, Rsum_scal_map. ring.
Qed.
Lemma trap_periodic N p : (0 < N)%nat -> p N = p 0%nat -> trap_cum N p N = 2 * PI / INR N * Rsum (map p (seq 0 N)).
Proof.
  intros HN E. unfold trap_cum. rewrite Rmult_comm. f_equal.
  assert (G : forall M, Rsum (map (fun j => 1 / 2 * (p j + p (S j))) (seq 0 M)) = Rsum (map p (seq 0 M)) + 1 / 2 * (p M - p 0%nat)).
  { induction M as [|M IH]; [cbn; field|]. rewrite !sum_S, IH. field. }
  rewrite G, E. field.
Qed.
Lemma sum_near N (p q : nat -> R) e : (forall j, Rabs (p j - q j) <= e) -> Rabs (Rsum (map p (seq 0 N)) - Rsum (map q (seq 0 N))) <= INR N * e.
Proof.
  intros H. induction N as [|N IH]; [cbn; rewrite Rminus_0_r, Rabs_R0; lra|]. rewrite !sum_S, S_INR.
  replace (Rsum (map p (seq 0 N)) + p N - (Rsum (map q (seq 0 N)) + q N)) with ((Rsum (map p (seq 0 N)) - Rsum (map q (seq 0 N))) + (p N - q N)) by ring.
  eapply Rle_trans; [apply Rabs_triang|]. pose proof (H N). lra.
Qed.
Lemma ft_shape_0 kappa x : ft_shape kappa 0 x = exp (kappa * cos x).
Proof. unfold ft_shape, ft_log. replace (x + 0 * sin x) with x by ring. reflexivity. Qed.
Lemma ft_T_0 kappa v : 0 <= kappa <= 100 -> integral (fun t => exp (kappa * cos t)) 0 (2 * PI) v -> Rabs (ft_T kappa 0 - v) <= 2 * PI * (6 / 10 ^ 20).
Proof.
  intros Hk I. pose proof PI_gt3. pose proof (ft_size_range kappa 0) as [HN _]. set (N := ft_size kappa 0) in *.
  assert (HN' : 0 < INR N) by (apply lt_0_INR; lia).
  assert (Hx : forall t, Rabs (exp (kappa * cos t) - epoly 511 (kappa * cos t)) <= 3 / 10 ^ 20).
  { intros t. apply epoly_near. rewrite Rabs_mult, Rabs_pos_eq by lra. pose proof (COS_bound t). assert (Rabs (cos t) <= 1) by (apply Rabs_le; lra). pose proof (Rabs_pos (cos t)). nra. }
  destruct (epoly_sum N kappa HN 511 ltac:(lia)) as (w & W & E).
  assert (T : ft_T kappa 0 = 2 * PI / INR N * Rsum (map (fun j => exp (kappa * cos (node N j))) (seq 0 N))).
  { unfold ft_T. fold N. rewrite trap_periodic; [|lia|].
    - f_equal. apply Rsum_ext_map. intros j _. apply ft_shape_0.
    - rewrite node_0, node_N by lia. rewrite !ft_shape_0, cos_neg. reflexivity. }
  assert (A : Rabs (ft_T kappa 0 - w) <= 2 * PI * (3 / 10 ^ 20)).
  { rewrite T, <- E. rewrite <- Rmult_minus_distr_l, Rabs_mult, Rabs_pos_eq by (left; apply step_pos; lia).
    pose proof (sum_near N (fun j => exp (kappa * cos (node N j))) (fun j => epoly 511 (kappa * cos (node N j))) (3 / 10 ^ 20) (fun j => Hx (node N j))) as S0.
    replace (2 * PI * (3 / 10 ^ 20)) with (2 * PI / INR N * (INR N * (3 / 10 ^ 20))) by (field; lra).
    apply Rmult_le_compat_l; [left; apply step_pos; lia|exact S0]. }
  assert (B : Rabs (v - w) <= 2 * PI * (3 / 10 ^ 20)).
  { pose proof (integral_lin _ _ 0 (2 * PI) (-1) _ _ I W) as D. replace (v - w) with (v + -1 * w) by ring.
    refine (integral_abs _ (fun _ => 3 / 10 ^ 20) 0 (2 * PI) (v + -1 * w) (2 * PI * (3 / 10 ^ 20)) ltac:(lra) _ D _).
    - intros x _. cbv beta. replace (exp (kappa * cos x) + -1 * epoly 511 (kappa * cos x)) with (exp (kappa * cos x) - epoly 511 (kappa * cos x)) by ring. apply Hx.
    - apply (integral_val _ _ _ (3 / 10 ^ 20 * (2 * PI - 0))); [ring|apply integral_const]. }
  replace (ft_T kappa 0 - v) with ((ft_T kappa 0 - w) - (v - w)) by ring. eapply Rle_trans; [apply Rabs_triang|]. rewrite Rabs_Ropp.
  replace (2 * PI * (6 / 10 ^ 20)) with (2 * PI * (3 / 10 ^ 20) + 2 * PI * (3 / 10 ^ 20)) by field. lra.
Qed.
Lemma i0_ge1 iv k : is_iv iv -> 1 <= iv 0%nat k.
Proof.
  intros H. pose proof PI_gt3. pose proof (H 0%nat k) as I. cbn [INR] in I.
  assert (I2 : integral (fun t => 1 + k * cos (INR 1 * t)) 0 (2 * PI) (2 * PI + k * 0)).
  { apply (integral_lin (fun _ => 1) (fun t => cos (INR 1 * t))); [|apply int_cos_n; lia]. apply (integral_val _ _ _ (1 * (2 * PI - 0))); [ring|apply integral_const]. }
  assert (2 * PI + k * 0 <= 2 * PI * iv 0%nat k); [|nra].
  refine (integral_le _ _ 0 (2 * PI) _ _ ltac:(lra) _ I2 I). intros x _. cbn [INR]. rewrite Rmult_0_l, cos_0, !Rmult_1_l. apply Von6Proofs.exp_ge1.
Qed.
Lemma ft_von_mises iv mu kappa x y : is_iv iv -> 0 <= mu <= 2 * PI -> / 10 ^ 9 < kappa <= 100 ->
  ft_public_pdf mu kappa 0 x = Fin y -> Rabs (y - von_pdf iv mu kappa x) <= / 10 ^ 15 * von_pdf iv mu kappa x.
Proof.
  intros Hiv Hm Hk E. pose proof PI_gt3.
  assert (Hok : ft_ok mu kappa 0 = true) by (apply ft_ok_spec; lra). rewrite ft_public_eq in E by exact Hok. injection E as <-.
  rewrite ft_pdf_eq by lra. rewrite (proj2 (Rleb_false kappa ft_ktol)) by (unfold ft_ktol; lra). rewrite ft_shape_0. unfold von_pdf.
  pose proof (Hiv 0%nat kappa) as I0. assert (I : integral (fun t => exp (kappa * cos t)) 0 (2 * PI) (2 * PI * iv 0%nat kappa)).
  { refine (integral_ext _ _ _ _ _ _ _ I0); [lra|]. intros t _. cbn [INR]. rewrite Rmult_0_l, cos_0, Rmult_1_l. reflexivity. }
  pose proof (ft_T_0 kappa _ ltac:(lra) I) as B. pose proof (i0_ge1 iv kappa Hiv) as G. set (v := 2 * PI * iv 0%nat kappa) in *.
  assert (V : 2 * PI <= v) by (unfold v; nra). set (T := ft_T kappa 0) in *. pose proof (exp_pos (kappa * cos (x - mu))) as P. set (e := exp (kappa * cos (x - mu))) in *.
  apply abs_le_inv in B.
  assert (B' : - (6 / 10 ^ 20) * v <= T - v <= 6 / 10 ^ 20 * v).
  { assert (0 < 6 / 10 ^ 20) by (apply Rdiv_lt_0_compat; [lra|apply pow_lt; lra]). nra. }
  assert (S1 : 6 / 10 ^ 20 <= / 10 ^ 18) by (unfold Rdiv; lra).
  assert (S2 : 0 < / 10 ^ 18) by (apply Rinv_0_lt_compat, pow_lt; lra).
  assert (T0 : v / 2 <= T) by (assert (/ 10 ^ 18 <= 1 / 2) by lra; nra).
  replace (e / T - e / v) with (e / v * ((v - T) / T)) by (field; lra). rewrite Rabs_mult, (Rabs_pos_eq (e / v)) by (apply Rlt_le, Rdiv_lt_0_compat; lra).
  rewrite (Rmult_comm (/ 10 ^ 15)). apply Rmult_le_compat_l; [apply Rlt_le, Rdiv_lt_0_compat; lra|].
  apply Rabs_le. assert (S3 : 2 * / 10 ^ 18 <= / 10 ^ 15) by lra.
  assert (Q : - (/ 10 ^ 15 * T) <= v - T <= / 10 ^ 15 * T) by nra.
  split; apply Rmult_le_reg_r with T; try lra; unfold Rdiv; rewrite ?(Rmult_assoc (v - T)), Rinv_l, ?Rmult_1_r by lra; lra.
Qed.
