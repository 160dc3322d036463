(** The rectangle rule for exp (kappa cos t): the error is at most 4 pi e^(- L N) exp (kappa cosh L). *)
From Verif Require Import Prelude NpModel NpProofs CircleSpec IntSpec IntProofs DistModel DistSpec DistProofs Dist2Proofs Dist4Proofs Dist5Proofs
  Dist6Proofs Dist7Proofs KjProofs Kj2Proofs VonModel VonSpec VonProofs Von2Proofs Von3Proofs Von4Proofs JpProofs Jp3Proofs Jp4Proofs Wn6Proofs Desc6Proofs FtModel FtSpec FtProofs Ft2Proofs Ft3Proofs.

Lemma cosh_ge1 x : 1 <= cosh x.
Proof.
  unfold cosh. pose proof (exp_pos x) as P. assert (E : exp x * exp (- x) = 1) by (rewrite <- exp_plus, Rplus_opp_r; apply exp_0).
  pose proof (Rle_0_sqr (exp x - 1)) as S. unfold Rsqr in S. pose proof (exp_pos (- x)). nra.
Qed.
Lemma cosh_step (L : R) (n : nat) : cosh (INR (S (S n)) * L) + cosh (INR n * L) = 2 * cosh L * cosh (INR (S n) * L).
Proof.
  unfold cosh. replace (INR (S (S n)) * L) with (INR (S n) * L + L) by (rewrite (S_INR (S n)); ring). replace (INR n * L) with (INR (S n) * L + - L) by (rewrite (S_INR n); ring).
  rewrite !Ropp_plus_distr, Ropp_involutive, !exp_plus. field.
Qed.
Lemma rsum_abs1 (f : nat -> R) N a : (forall k, Rabs (f k) <= 1) -> Rabs (Rsum (map f (seq a N))) <= INR N.
Proof.
  intros H. revert a. induction N as [|N IH]; intros a; [cbn; rewrite Rabs_R0; lra|]. cbn [seq map]. rewrite Rsum_cons, S_INR.
  eapply Rle_trans; [apply Rabs_triang|]. pose proof (H a). pose proof (IH (S a)). lra.
Qed.
Lemma alias N L : (0 < N)%nat -> 0 <= L -> forall m n v, integral (harm m n) 0 (2 * PI) v ->
  Rabs (2 * PI / INR N * Rsum (map (fun k => harm m n (node N k)) (seq 0 N)) - v) <= 4 * PI * exp (- (INR N * L)) * cosh L ^ m * cosh (INR n * L).
Proof.
  intros HN HL. pose proof PI_gt3 as P3. assert (N0 : 0 < INR N) by (apply lt_0_INR; lia). pose proof (exp_pos (- (INR N * L))) as X0. set (X := exp (- (INR N * L))) in *.
  induction m as [|m IH]; intros n v I.
  - pose proof (cosh_ge1 (INR n * L)) as C1. cbn [pow]. rewrite Rmult_1_r. destruct (le_lt_dec N n) as [G|G].
    + assert (v = 0).
      { apply (integral_unique _ _ _ _ _ I). apply (integral_ext (fun t => cos (INR n * t))); [lra|intros; unfold harm; cbn [pow]; ring|]. apply int_cos_n. lia. }
      subst v. rewrite Rminus_0_r, Rabs_mult, Rabs_pos_eq by (apply Rlt_le, Rdiv_lt_0_compat; lra).
      pose proof (rsum_abs1 (fun k => harm 0 n (node N k)) N 0) as S. assert (S' : Rabs (Rsum (map (fun k => harm 0 n (node N k)) (seq 0 N))) <= INR N).
      { apply S. intros k. unfold harm. cbn [pow]. rewrite Rmult_1_l. apply Rabs_le, COS_bound. }
      apply Rle_trans with (2 * PI / INR N * INR N); [apply Rmult_le_compat_l; [apply Rlt_le, Rdiv_lt_0_compat; lra|exact S']|].
      replace (2 * PI / INR N * INR N) with (2 * PI) by (field; lra).
      assert (Q : 1 <= 2 * (X * cosh (INR n * L))); [|nra].
      unfold cosh, X. replace (2 * (exp (- (INR N * L)) * ((exp (INR n * L) + exp (- (INR n * L))) / 2))) with (exp (- (INR N * L)) * exp (INR n * L) + exp (- (INR N * L)) * exp (- (INR n * L))) by field.
      rewrite <- !exp_plus. pose proof (exp_pos (- (INR N * L) + - (INR n * L))). assert (1 <= exp (- (INR N * L) + INR n * L)); [|lra].
      rewrite <- exp_0. apply le_INR in G. assert (0 <= - (INR N * L) + INR n * L) by nra. destruct (Req_dec 0 (- (INR N * L) + INR n * L)) as [E|E]; [rewrite <- E; lra|]. left. apply exp_increasing. lra.
    + rewrite (harm_sum N 0 n v ltac:(lia) I), Rminus_eq_0, Rabs_R0. apply Rmult_le_pos; [|lra]. apply Rmult_le_pos; lra.
  - assert (Ex : forall n, exists w, integral (harm m n) 0 (2 * PI) w) by (intros k; apply continuous_integral; [lra|intros; apply harm_cont]).
    destruct n as [|n].
    + rewrite (Rsum_ext_map _ (fun k => harm m 1 (node N k))) by (intros; apply harm_step0). eapply Rle_trans; [apply IH|].
      * refine (integral_ext _ _ _ _ _ _ _ I); [lra|]. intros; apply harm_step0.
      * cbn [INR pow]. rewrite Rmult_1_l, Rmult_0_l. replace (cosh 0) with 1 by (unfold cosh; rewrite Ropp_0, exp_0; field). right. ring.
    + destruct (Ex (S (S n))) as [a A]. destruct (Ex n) as [b B].
      rewrite (Rsum_ext_map _ (fun k => 1 / 2 * (harm m (S (S n)) (node N k) + harm m n (node N k)))) by (intros; apply harm_step).
      rewrite Rsum_scal_map, Rsum_plus_map. pose proof (IH (S (S n)) a A) as EA. pose proof (IH n b B) as EB.
      assert (Ev : v = 1 / 2 * (a + b)).
      { apply (integral_unique _ _ _ _ _ I). apply (integral_ext (fun t => 1 / 2 * (harm m (S (S n)) t + harm m n t))); [lra|intros; symmetry; apply harm_step|].
        apply (integral_scal (fun t => harm m (S (S n)) t + harm m n t)); [lra|]. apply integral_plus; [lra|exact A|exact B]. }
      subst v. set (sa := Rsum (map (fun k => harm m (S (S n)) (node N k)) (seq 0 N))) in *. set (sb := Rsum (map (fun k => harm m n (node N k)) (seq 0 N))) in *.
      replace (2 * PI / INR N * (1 / 2 * (sa + sb)) - 1 / 2 * (a + b)) with (1 / 2 * ((2 * PI / INR N * sa - a) + (2 * PI / INR N * sb - b))) by (field; lra).
      rewrite Rabs_mult, (Rabs_pos_eq (1 / 2)) by lra. pose proof (Rabs_triang (2 * PI / INR N * sa - a) (2 * PI / INR N * sb - b)) as T.
      replace (4 * PI * X * cosh L ^ S m * cosh (INR (S n) * L)) with (1 / 2 * (4 * PI * X * cosh L ^ m * (2 * cosh L * cosh (INR (S n) * L)))) by (cbn [pow]; field).
      rewrite <- (cosh_step L n). nra.
Qed.
(** The exponential series. *)
Lemma epoly_S n x : epoly (S n) x = epoly n x + / INR (fact (S n)) * x ^ S n.
Proof. unfold epoly. rewrite tech5. reflexivity. Qed.
Lemma epoly_cv x : Un_cv (fun n => epoly n x) (exp x).
Proof. unfold exp, epoly. destruct (exist_exp x) as [l H]. exact H. Qed.
Lemma epoly_grows K : 0 <= K -> forall n k, epoly n K <= epoly (n + k) K.
Proof.
  intros HK n. induction k as [|k IH]; [rewrite Nat.add_0_r; lra|]. rewrite Nat.add_succ_r, epoly_S.
  assert (0 <= / INR (fact (S (n + k))) * K ^ S (n + k)); [|lra]. apply Rmult_le_pos; [left; apply Rinv_0_lt_compat, INR_fact_lt_0|apply pow_le, HK].
Qed.
Lemma epoly_le_exp K n : 0 <= K -> epoly n K <= exp K.
Proof.
  intros HK. apply (growing_ineq (fun n => epoly n K)); [|apply epoly_cv]. intros k. pose proof (epoly_grows K HK k 1) as G. rewrite Nat.add_1_r in G. exact G.
Qed.
Lemma epoly_dom x K : Rabs x <= K -> forall n k, Rabs (epoly (n + k) x - epoly n x) <= epoly (n + k) K - epoly n K.
Proof.
  intros H n. induction k as [|k IH]; [rewrite Nat.add_0_r, !Rminus_eq_0, Rabs_R0; lra|]. rewrite Nat.add_succ_r, !epoly_S.
  set (c := / INR (fact (S (n + k)))). assert (c0 : 0 < c) by (apply Rinv_0_lt_compat, INR_fact_lt_0).
  replace (epoly (n + k) x + c * x ^ S (n + k) - epoly n x) with ((epoly (n + k) x - epoly n x) + c * x ^ S (n + k)) by ring.
  eapply Rle_trans; [apply Rabs_triang|]. rewrite Rabs_mult, (Rabs_pos_eq c), <- RPow_abs by lra.
  assert (Rabs x ^ S (n + k) <= K ^ S (n + k)) by (apply pow_incr; split; [apply Rabs_pos|exact H]). nra.
Qed.
Lemma epoly_unif K e : 0 < e -> exists n, forall x, Rabs x <= K -> Rabs (exp x - epoly n x) <= e.
Proof.
  intros He. destruct (epoly_cv K (e / 2) ltac:(lra)) as [n Hn]. exists n. intros x Hx. assert (K0 : 0 <= K) by (pose proof (Rabs_pos x); lra).
  specialize (Hn n (le_n n)). unfold R_dist in Hn. pose proof (epoly_le_exp K n K0) as L. rewrite Rabs_left1 in Hn by lra.
  apply Rnot_lt_le. intros C. destruct (epoly_cv x (e / 2) ltac:(lra)) as [p Hp]. specialize (Hp (n + p)%nat ltac:(lia)). unfold R_dist in Hp.
  pose proof (epoly_dom x K Hx n p) as D. pose proof (epoly_le_exp K (n + p) K0) as L2.
  assert (Rabs (exp x - epoly n x) <= Rabs (epoly (n + p) x - exp x) + Rabs (epoly (n + p) x - epoly n x)); [|lra].
  replace (exp x - epoly n x) with (- (epoly (n + p) x - exp x) + (epoly (n + p) x - epoly n x)) by ring. eapply Rle_trans; [apply Rabs_triang|]. rewrite Rabs_Ropp. lra.
Qed.
Lemma epoly_alias N k L : (0 < N)%nat -> 0 <= L -> 0 <= k -> forall n, exists w, integral (fun t => epoly n (k * cos t)) 0 (2 * PI) w /\
  Rabs (2 * PI / INR N * Rsum (map (fun j => epoly n (k * cos (node N j))) (seq 0 N)) - w) <= 4 * PI * exp (- (INR N * L)) * epoly n (k * cosh L).
Proof.
  intros HN HL Hk. pose proof PI_gt3. assert (C0 : cosh (INR 0 * L) = 1) by (cbn [INR]; rewrite Rmult_0_l; unfold cosh; rewrite Ropp_0, exp_0; field).
  induction n as [|n IH].
  - destruct (continuous_integral (harm 0 0) 0 (2 * PI)) as [v V]; [lra|intros; apply harm_cont|]. exists v. split.
    + refine (integral_ext _ _ _ _ _ _ _ V); [lra|]. intros x _. rewrite epoly_as_harm. cbn. field.
    + pose proof (alias N L HN HL 0 0 v V) as A. rewrite C0 in A. cbn [pow] in A.
      rewrite (Rsum_ext_map _ (fun j => harm 0 0 (node N j))) by (intros; rewrite epoly_as_harm; cbn; field).
      replace (epoly 0 (k * cosh L)) with 1 by (unfold epoly; cbn; field). lra.
  - destruct IH as (w & W & E). destruct (continuous_integral (harm (S n) 0) 0 (2 * PI)) as [v V]; [lra|intros; apply harm_cont|].
    set (c := / INR (fact (S n)) * k ^ S n). assert (c0 : 0 <= c) by (apply Rmult_le_pos; [left; apply Rinv_0_lt_compat, INR_fact_lt_0|apply pow_le, Hk]).
    assert (Q : forall t, epoly (S n) (k * cos t) = epoly n (k * cos t) + c * harm (S n) 0 t) by (intros t; rewrite !epoly_as_harm, tech5; reflexivity).
    exists (w + c * v). split.
    + refine (integral_ext _ _ _ _ _ _ _ (integral_lin _ (harm (S n) 0) _ _ c _ _ W V)); [lra|]. intros x _. rewrite Q. reflexivity.
    + pose proof (alias N L HN HL (S n) 0 v V) as A. rewrite C0, Rmult_1_r in A.
      rewrite (Rsum_ext_map _ (fun j => epoly n (k * cos (node N j)) + c * harm (S n) 0 (node N j))) by (intros; apply Q). rewrite Rsum_plus_map, Rsum_scal_map.
      rewrite epoly_S, Rpow_mult_distr. set (s := Rsum (map (fun j => epoly n (k * cos (node N j))) (seq 0 N))) in *. set (t := Rsum (map (fun j => harm (S n) 0 (node N j)) (seq 0 N))) in *.
      replace (2 * PI / INR N * (s + c * t) - (w + c * v)) with ((2 * PI / INR N * s - w) + c * (2 * PI / INR N * t - v)) by ring.
      eapply Rle_trans; [apply Rabs_triang|]. rewrite Rabs_mult, (Rabs_pos_eq c c0).
      replace (4 * PI * exp (- (INR N * L)) * (epoly n (k * cosh L) + / INR (fact (S n)) * (k ^ S n * cosh L ^ S n))) with
        (4 * PI * exp (- (INR N * L)) * epoly n (k * cosh L) + c * (4 * PI * exp (- (INR N * L)) * cosh L ^ S n)) by (unfold c; ring).
      apply Rplus_le_compat; [exact E|]. apply Rmult_le_compat_l; [exact c0|exact A].
Qed.
Lemma exp_alias N k L v : (0 < N)%nat -> 0 <= L -> 0 <= k -> integral (fun t => exp (k * cos t)) 0 (2 * PI) v ->
  Rabs (2 * PI / INR N * Rsum (map (fun j => exp (k * cos (node N j))) (seq 0 N)) - v) <= 4 * PI * exp (- (INR N * L)) * exp (k * cosh L).
Proof.
  intros HN HL Hk I. pose proof PI_gt3. assert (N0 : 0 < INR N) by (apply lt_0_INR; lia). apply Rnot_lt_le. intros C.
  set (B := 4 * PI * exp (- (INR N * L)) * exp (k * cosh L)) in *. set (S := Rsum (map (fun j => exp (k * cos (node N j))) (seq 0 N))) in *.
  set (d := Rabs (2 * PI / INR N * S - v) - B) in *. assert (d0 : 0 < d) by (unfold d; lra).
  set (e := d / (8 * PI)). assert (e0 : 0 < e) by (apply Rdiv_lt_0_compat; lra). assert (Ee : e * (8 * PI) = d) by (unfold e; field; lra).
  destruct (epoly_unif k e e0) as [n Hn]. destruct (epoly_alias N k L HN HL Hk n) as (w & W & E).
  assert (Hx : forall t, Rabs (exp (k * cos t) - epoly n (k * cos t)) <= e).
  { intros t. apply Hn. rewrite Rabs_mult, Rabs_pos_eq by lra. pose proof (COS_bound t). assert (Rabs (cos t) <= 1) by (apply Rabs_le; lra). pose proof (Rabs_pos (cos t)). nra. }
  set (s := Rsum (map (fun j => epoly n (k * cos (node N j))) (seq 0 N))) in *.
  assert (A : Rabs (2 * PI / INR N * S - 2 * PI / INR N * s) <= 2 * PI * e).
  { rewrite <- Rmult_minus_distr_l, Rabs_mult, Rabs_pos_eq by (apply Rlt_le, Rdiv_lt_0_compat; lra).
    pose proof (sum_near N (fun j => exp (k * cos (node N j))) (fun j => epoly n (k * cos (node N j))) e (fun j => Hx (node N j))) as S0.
    replace (2 * PI * e) with (2 * PI / INR N * (INR N * e)) by (field; lra). apply Rmult_le_compat_l; [apply Rlt_le, Rdiv_lt_0_compat; lra|exact S0]. }
  assert (D : Rabs (v - w) <= 2 * PI * e).
  { pose proof (integral_lin _ _ 0 (2 * PI) (-1) _ _ I W) as D. replace (v - w) with (v + -1 * w) by ring.
    refine (integral_abs _ (fun _ => e) 0 (2 * PI) (v + -1 * w) (2 * PI * e) ltac:(lra) _ D _).
    - intros x _. cbv beta. replace (exp (k * cos x) + -1 * epoly n (k * cos x)) with (exp (k * cos x) - epoly n (k * cos x)) by ring. apply Hx.
    - apply (integral_val _ _ _ (e * (2 * PI - 0))); [ring|apply integral_const]. }
  assert (F : 4 * PI * exp (- (INR N * L)) * epoly n (k * cosh L) <= B).
  { unfold B. apply Rmult_le_compat_l; [pose proof (exp_pos (- (INR N * L))); nra|]. apply epoly_le_exp. pose proof (cosh_ge1 L). nra. }
  assert (G : Rabs (2 * PI / INR N * S - v) <= Rabs (2 * PI / INR N * S - 2 * PI / INR N * s) + Rabs (2 * PI / INR N * s - w) + Rabs (v - w)).
  { replace (2 * PI / INR N * S - v) with ((2 * PI / INR N * S - 2 * PI / INR N * s) + (2 * PI / INR N * s - w) + - (v - w)) by ring.
    eapply Rle_trans; [apply Rabs_triang|]. rewrite Rabs_Ropp. apply Rplus_le_compat_r. apply Rabs_triang. }
  unfold d in Ee. lra.
Qed.
