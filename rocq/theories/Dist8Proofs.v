(** Statements about the public functions assembled from the previous files. *)
From Verif Require Import Prelude NpModel NpProofs CircleSpec IntSpec IntProofs DistModel DistSpec DistProofs Dist2Proofs Dist3Proofs Dist4Proofs
  Dist5Proofs Dist6Proofs Dist7Proofs.

Lemma describes_density pdf cdf : describes pdf cdf -> pdf_is_density pdf.
Proof. intros (f & F & A & _ & P & D & _). exists f. auto. Qed.

Lemma wc_density mu rho : wc_ok mu rho = true -> pdf_is_density (public_pdf (wc_ok mu rho) (wc_pdf mu rho)).
Proof. intros H. eapply describes_density. apply wc_describes. exact H. Qed.

(** wrapcauchy's distribution function away from 2 pi. *)
Lemma wc_cdf_partial mu rho : wc_ok mu rho = true -> ftiny <= rho <= 1 - / 10 ^ 15 ->
  exists f F, (forall x, public_pdf (wc_ok mu rho) (wc_pdf mu rho) x = Fin (f x)) /\ is_cdf F f /\
    forall x, 0 <= x <= 2 * PI - 9 / 100000 -> F x < 1 - / 10 ^ 12 ->
      public_cdf (wc_ok mu rho) (wc_cdf mu rho) x = Fin (F x).
Proof.
  intros Hok Hr. pose proof PI_gt3 as P3. pose proof PI_4 as P4.
  destruct (wc_describes mu rho Hok) as (f & F & A & B & _ & _ & C).
  exists f, F. split; [exact A|]. split; [exact C|]. intros x Hx HF. rewrite <- (B x).
  rewrite Hok in *. rewrite !public_cdf_fin. f_equal. apply wc_ok_spec in Hok. destruct Hok as [Hm H].
  assert (E : F x = wcI mu rho x).
  { specialize (B x). rewrite public_cdf_fin in B. injection B as <-.
    apply (pub_F_eq _ (wcI mu rho)); [apply wcI_0|apply wcI_2pi|reflexivity|lra]. }
  unfold pub_F. rewrite wrap_in by lra. destruct (Rleb_spec (2 * PI) x); [lra|].
  destruct (Rltb_spec 0 x); [|reflexivity].
  apply wc_cdf_exact; try assumption; try lra.
  destruct (close_2pi x) eqn:Cl; [|reflexivity]. apply close_2pi_spec in Cl; lra.
Qed.

Lemma wc_monotone_partial mu rho x1 x2 v1 v2 : wc_ok mu rho = true -> ftiny <= rho <= 1 - / 10 ^ 15 ->
  0 <= x1 -> x1 <= x2 -> x2 <= 2 * PI - 9 / 100000 ->
  public_cdf (wc_ok mu rho) (wc_cdf mu rho) x1 = Fin v1 ->
  public_cdf (wc_ok mu rho) (wc_cdf mu rho) x2 = Fin v2 ->
  (exists f, (forall x, public_pdf (wc_ok mu rho) (wc_pdf mu rho) x = Fin (f x)) /\
     exists p, integral f x2 (2 * PI) p /\ / 10 ^ 12 < p) ->
  v1 <= v2.
Proof.
  intros Hok Hr H1 H12 H2 E1 E2 (f' & A' & p & Ip & Hp).
  destruct (wc_cdf_partial mu rho Hok Hr) as (f & F & A & C & G). pose proof PI_pos.
  destruct C as (F0 & F1 & Mi & _).
  destruct (Mi x1 x2 H1 H12 ltac:(lra)) as [M _]. destruct (Mi x2 (2 * PI) ltac:(lra) ltac:(lra) ltac:(lra)) as [_ I2].
  assert (p = F (2 * PI) - F x2) as ->.
  { eapply integral_unique; [exact Ip|]. revert I2. apply integral_ext; [lra|]. intros x _.
    specialize (A x). rewrite A' in A. injection A as ->. reflexivity. }
  rewrite F1 in Hp.
  rewrite G in E1 by lra. rewrite G in E2 by lra. injection E1 as <-. injection E2 as <-. exact M.
Qed.

(** wrapcauchy's sampler. *)
Lemma wc_pdf_turns mu rho x (k : Z) : wc_pdf mu rho (x + 2 * PI * IZR k) = wc_pdf mu rho x.
Proof.
  unfold wc_pdf. replace (x + 2 * PI * IZR k - mu) with (x - mu + 2 * PI * IZR k) by ring. rewrite cos_turns. reflexivity.
Qed.
Lemma wc_wrap mu rho x : wc_pdf mu rho (wrap_angles x) = wc_pdf mu rho x.
Proof. destruct (wrap_same x) as [k ->]. apply wc_pdf_turns. Qed.
Lemma wc_sampler mu rho v : wc_ok mu rho = true -> / 10 ^ 15 < rho <= 1 - 2 / 100000 ->
  exists f, (forall x, public_pdf (wc_ok mu rho) (wc_pdf mu rho) x = Fin (f x)) /\
    samples_from (fun u => wc_rvs mu rho u v) f /\ (forall u, 0 <= wc_rvs mu rho u v < 2 * PI).
Proof.
  intros Hok Hr. rewrite Hok. apply wc_ok_spec in Hok. destruct Hok as [Hm H].
  exists (wc_pdf mu rho). split; [intros x; rewrite public_pdf_fin, wc_wrap; reflexivity|]. split.
  - exists (wc_lift mu rho). split; [intros; apply wc_lift_incr; assumption|]. split; [apply wc_lift_turn|].
    split; [intros; apply wc_rvs_lift; exact Hr|]. intros. apply wc_lift_integral; assumption.
  - intros u. apply wc_rvs_lift. exact Hr.
Qed.
Lemma wc_sampler_stuck : exists mu rho, wc_ok mu rho = true /\
  (forall u v u' v', wc_rvs mu rho u v = wc_rvs mu rho u' v') /\
  forall f v, (forall x, public_pdf (wc_ok mu rho) (wc_pdf mu rho) x = Fin (f x)) ->
    ~ samples_from (fun u => wc_rvs mu rho u v) f.
Proof.
  exists 0, (1 - / 100000). pose proof PI_gt3 as P3.
  assert (Hok : wc_ok 0 (1 - / 100000) = true).
  { unfold wc_ok. repeat (apply andb_true_intro; split); try (apply Rleb_true); try (apply Rltb_true); lra. }
  split; [exact Hok|]. split; [intros; rewrite !wc_rvs_stuck by lra; reflexivity|].
  intros f v _ (g & G1 & G2 & G3 & _).
  (* three inputs within a turn would all hit the same direction *)
  destruct (G3 0) as [k0 E0]. destruct (G3 1) as [k1 E1].
  rewrite !wc_rvs_stuck in * by lra.
  pose proof (G1 0 1 ltac:(lra)) as A. pose proof (G1 1 (0 + 2 * PI) ltac:(lra)) as B. rewrite G2 in B.
  assert (D : 2 * PI * IZR (k0 - k1) = g 1 - g 0) by (rewrite minus_IZR; lra).
  assert (L : 0 < IZR (k0 - k1)) by (apply (Rmult_lt_reg_l (2 * PI)); lra).
  assert (U : IZR (k0 - k1) < 1) by (apply (Rmult_lt_reg_l (2 * PI)); lra).
  apply lt_IZR in L. apply lt_IZR in U. lia.
Qed.

(** triangular's fit in terms of the public density. *)
Lemma tri_fit_loglik root s est f :
  (0 < tri_score s 0 -> tri_score s tri_hi < 0 ->
   0 <= root (tri_score s) 0 tri_hi <= tri_hi /\ tri_score s (root (tri_score s) 0 tri_hi) = 0) ->
  tri_fit_mle root s = Ok est ->
  (forall r x, tri_ok r = true -> public_pdf (tri_ok r) (tri_pdf r) x = Fin (f r x)) ->
  tri_ok est = true /\ forall r, 0 <= r <= 4 / PI ^ 2 - / 10 ^ 12 -> loglik (f r) s <= loglik (f est) s.
Proof.
  intros HR H E. destruct (tri_fit_max root s est HR H) as [G1 G2]. pose proof tri_hi_range as [T1 T2].
  assert (Q : 0 < PI ^ 2) by (apply pow_lt; apply PI_RGT_0).
  assert (OK : forall r, 0 <= r <= tri_hi -> tri_ok r = true).
  { intros r Hr. unfold tri_ok. apply andb_true_intro; split; apply Rleb_true; [lra|].
    assert (0 < / 10 ^ 12) by (apply Rinv_0_lt_compat; lra). unfold tri_hi in Hr. lra. }
  split; [apply OK; exact G1|]. intros r Hr. fold tri_hi in Hr.
  assert (L : forall r, 0 <= r <= tri_hi -> loglik (f r) s = Rsum (map (fun p => snd p * ln (tri_pdf r (pymod (fst p) (2 * PI)))) s)).
  { intros r' Hr'. unfold loglik. apply Rsum_ext_map. intros p _. f_equal. f_equal.
    specialize (E r' (fst p) (OK r' Hr')). rewrite (OK r' Hr'), public_pdf_fin in E. injection E as <-.
    unfold wrap_angles. destruct (Reqb_spec (fst p) (2 * PI)) as [->|]; [|reflexivity].
    replace (2 * PI) with (0 + 2 * PI * IZR 1) at 2 by ring. rewrite pymod_add by (pose proof PI2_pos; lra).
    pose proof PI2_pos. pose proof PI_pos. rewrite pymod_small by lra. unfold tri_pdf.
    rewrite (Rabs_left1 (PI - 2 * PI)), (Rabs_right (PI - 0)) by lra. f_equal. f_equal. ring. }
  rewrite !L by assumption. apply G2. exact Hr.
Qed.
