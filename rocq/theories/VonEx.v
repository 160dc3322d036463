(** Concrete instances for the von Mises theorems. *)
From Verif Require Import Prelude NpModel NpProofs UtilsModel UtilsProofs DescModel DescProofs CircleSpec IntSpec IntProofs DistModel DistSpec DistProofs Dist2Proofs Dist4Proofs Dist5Proofs
  Dist6Proofs Dist7Proofs Dist8Proofs KjProofs Kj2Proofs Kj6Proofs Kj7Proofs VonModel VonSpec VonProofs Von2Proofs Von3Proofs Von4Proofs Von5Proofs Von6Proofs.

Lemma ex_von : von_ok (PI / 3) 2 = true.
Proof. pose proof PI_RGT_0. unfold von_ok. rewrite !andb_true_iff, !Rleb_true, Rltb_true. lra. Qed.
Lemma von_ok_intro mu k : 0 <= mu <= 2 * PI -> 0 < k -> von_ok mu k = true.
Proof. intros. unfold von_ok. rewrite !andb_true_iff, !Rleb_true, Rltb_true. lra. Qed.
Lemma von_first iv mu k f a b : is_iv iv -> von_ok mu k = true ->
  (forall x, public_pdf (von_ok mu k) (von_pdf iv mu k) x = Fin (f x)) -> trig_moment_of f 1 a b ->
  von_var iv k = 1 - sqrt (a ^ 2 + b ^ 2) /\ von_std iv k = sqrt (- 2 * ln (sqrt (a ^ 2 + b ^ 2))).
Proof.
  intros H Hok E [A B]. destruct (von_moments iv mu k f 1 H Hok E) as [A' B']. change (Z.of_nat 1) with 1%Z in A', B'.
  apply von_ok_spec in Hok as [_ Hk]. rewrite (integral_unique _ _ _ _ _ A A'), (integral_unique _ _ _ _ _ B B').
  pose proof (iv_pos iv 1 k H Hk). pose proof (i0_pos iv k H). set (r := iv 1%nat k / iv 0%nat k). assert (0 < r) by (apply Rdiv_lt_0_compat; assumption).
  cbn [INR]. rewrite Rmult_1_l. replace ((r * cos mu) ^ 2 + (r * sin mu) ^ 2) with (r * r * (sin mu * sin mu + cos mu * cos mu)) by ring.
  pose proof (sin2_cos2 mu) as Q. unfold Rsqr in Q. rewrite Q, Rmult_1_r, sqrt_square by lra. apply von_var_r. reflexivity.
Qed.
(** The gradient of the objective is wrong in its first component. *)
Lemma ex_von_grad : vSn [(PI / 2, 1)] 0 <> 0.
Proof. unfold vSn. cbn [map]. unfold Rsum. cbn [fold_right fst snd]. rewrite Rminus_0_r, sin_PI2. lra. Qed.
Lemma vC_0 s : vC s 0 = Rsum (map (fun p => snd p * cos (fst p)) s) /\ vSn s 0 = Rsum (map (fun p => snd p * sin (fst p)) s).
Proof. split; apply Rsum_ext_map; intros p _; rewrite Rminus_0_r; reflexivity. Qed.
Lemma von_fit_best iv s mu k mu' : is_iv iv -> von_fit_mu s = Ok mu -> 0 < k ->
  let len := sqrt (Rsum (map (fun p => snd p * cos (fst p)) s) ^ 2 + Rsum (map (fun p => snd p * sin (fst p)) s) ^ 2) in
  let total := Rsum (map snd s) in
  von_ok mu k = true /\
  loglik (von_pdf iv mu' k) s <= loglik (von_pdf iv mu k) s + 2 * k * (/ 10 ^ 12 * total) /\
  (/ 10 ^ 12 * total < len -> loglik (von_pdf iv mu' k) s <= loglik (von_pdf iv mu k) s).
Proof.
  intros H E Hk. cbv zeta. destruct (von_fit_max iv s mu k mu' H E Hk) as (A & B & C). destruct (vC_0 s) as [E1 E2]. rewrite E1, E2 in C.
  unfold hypot in C. split; [exact A|]. split; [exact B|]. intros L. apply C. eapply Rlt_le_trans; [exact L|]. right. f_equal. ring.
Qed.
Lemma ex_von_fit : exists mu, von_fit_mu [(0, 1); (PI / 2, 3)] = Ok mu.
Proof.
  assert (E1 : existsb (fun p : R * R => Rltb (snd p) 0) [(0, 1); (PI / 2, 3)] = false).
  { cbn [existsb snd]. rewrite !(proj2 (Rltb_false _ 0)) by lra. reflexivity. }
  assert (E2 : Rleb (wtotal [(0, 1); (PI / 2, 3)]) 0 = false).
  { apply Rleb_false. unfold wtotal. cbn [map snd]. unfold Rsum. cbn [fold_right]. lra. }
  unfold von_fit_mu. rewrite E1, E2. cbv zeta. destruct (fst _); eexists; reflexivity.
Qed.
Lemma ex_von_fit_len : let s := [(0, 1); (PI / 2, 3)] in
  / 10 ^ 12 * Rsum (map snd s) < sqrt (Rsum (map (fun p => snd p * cos (fst p)) s) ^ 2 + Rsum (map (fun p => snd p * sin (fst p)) s) ^ 2).
Proof.
  cbv zeta. cbn [map]. unfold Rsum. cbn [fold_right fst snd]. rewrite cos_0, sin_0, cos_PI2, sin_PI2.
  apply Rlt_le_trans with 1; [lra|]. rewrite <- sqrt_1 at 1. apply sqrt_le_1; lra.
Qed.
Lemma von_cdf_both iv num mu k x v : is_iv iv -> von_ok mu k = true -> 0 < x < 2 * PI -> close_2pi x = false ->
  (460 < k -> Rabs (num x mu k - v) <= / 10 ^ 10) ->
  integral (von_pdf iv mu k) 0 x v ->
  exists u, public_cdf (von_ok mu k) (von_cdf iv num mu k) x = Fin u /\
    Rabs (u - v) <= 4 / 10 ^ 9 /\ (/ 10 ^ 9 <= k -> Rabs (u - v) <= / 10 ^ 10).
Proof.
  intros H Hok Hx Hcl Hn Hv. exists (von_cdf iv num mu k x). split; [|split].
  - rewrite Hok, public_cdf_fin. unfold pub_F. rewrite wrap_in by lra. rewrite (proj2 (Rleb_false _ _)), (proj2 (Rltb_true _ _)) by lra. reflexivity.
  - destruct (Rle_dec (/ 10 ^ 9) k) as [K|K].
    + eapply Rle_trans; [apply von_cdf_acc; eassumption|lra].
    + apply von_cdf_small; try assumption. lra.
  - intros K. apply von_cdf_acc; assumption.
Qed.
Lemma von_ppf_public iv num ndtri mu k q : von_ok mu k = true -> 0 < q < 1 ->
  public_ppf (von_ok mu k) (von_ppf iv num ndtri mu k) q = Fin (von_ppf iv num ndtri mu k q).
Proof. intros -> Hq. unfold public_ppf. cbn [negb]. rewrite !(proj2 (Rltb_true _ _)) by lra. reflexivity. Qed.
Lemma von_ppf_small iv num ndtri mu k q : is_iv iv -> 0 < k <= / 10 ^ 9 -> 0 < q < 1 ->
  forall w, integral (von_pdf iv mu k) 0 (von_ppf iv num ndtri mu k q) w -> Rabs (w - q) <= 4 / 10 ^ 9.
Proof.
  intros H Hk Hq w W. pose proof PI2_pos as P2. assert (E : von_ppf iv num ndtri mu k q = 2 * PI * q).
  { unfold von_ppf. cbv zeta. rewrite (proj2 (Rleb_true k _)) by lra. apply pymod_small. nra. }
  rewrite E in W. pose proof (von_near_uniform iv mu k (2 * PI * q) w H ltac:(lra) ltac:(nra) W) as B.
  replace (2 * PI * q / (2 * PI)) with q in B by (field; lra). rewrite Rabs_minus_sym. lra.
Qed.
Lemma von_rvs_small iv mu k u rest v : is_iv iv -> 0 < k <= / 10 ^ 9 -> 0 <= u < 1 ->
  von_rvs mu k (u :: rest) = Some (2 * PI * u) /\ (integral (von_pdf iv mu k) 0 (2 * PI * u) v -> Rabs (u - v) <= 4 / 10 ^ 9).
Proof.
  intros H Hk Hu. pose proof PI2_pos as P2. split.
  - unfold von_rvs. cbv zeta. rewrite (proj2 (Rleb_true k _)) by lra. reflexivity.
  - intros W. pose proof (von_near_uniform iv mu k (2 * PI * u) v H ltac:(lra) ltac:(nra) W) as B.
    replace (2 * PI * u / (2 * PI)) with u in B by (field; lra). lra.
Qed.
Lemma ex_not_window : close_2pi 1 = false.
Proof. pose proof PI_gt3. apply not_window; lra. Qed.
(** The hypothesis on q of the quantile theorem for kappa = 1, mu = 0, q = 1/2. *)
Lemma ex_ppf_hyp iv v : is_iv iv -> integral (von_pdf iv 0 1) 0 (2 * PI - 9 / 100000) v -> 1 / 2 <= v.
Proof.
  intros H V. pose proof PI_gt3 as P3. destruct (von_truth iv 0 1 H) as (G & G0 & G1 & GD & GI & GM).
  rewrite (integral_unique _ _ _ _ _ V (GI (2 * PI - 9 / 100000) ltac:(lra))).
  assert (J : integral (von_pdf iv 0 1) (2 * PI - 9 / 100000) (2 * PI) (G (2 * PI) - G (2 * PI - 9 / 100000))).
  { apply ftc; [lra|intros; apply von_pdf_cont|intros; apply GD; lra]. }
  apply (integral_le (von_pdf iv 0 1) (fun _ => 1) _ _ _ (1 * (2 * PI - (2 * PI - 9 / 100000)))) in J; [rewrite G1 in J; lra|lra| |apply integral_const].
  intros t _. unfold von_pdf. pose proof (i0_ge1 iv 1 H) as I0. pose proof exp_le_3 as E3. pose proof (vE_le 1 (t - 0) ltac:(lra)) as U. unfold vE in U.
  apply Rmult_le_reg_r with (2 * PI * iv 0%nat 1); [nra|]. unfold Rdiv. rewrite Rmult_assoc, Rinv_l by nra. nra.
Qed.
