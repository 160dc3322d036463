(** katojones: where the cdf and the ppf go wrong. *)
From Verif Require Import Prelude EmModel NpModel NpProofs CircleSpec IntSpec IntProofs DistModel DistSpec DistProofs
  Dist2Proofs Dist4Proofs Dist5Proofs Dist7Proofs Dist8Proofs Desc6Proofs KjModel KjSpec KjProofs Kj2Proofs Kj3Proofs Kj4Proofs.

(** ** rho = 0 *)
Definition kj_card : kj := {| kj_mu := 0; kj_gamma := 1 / 2; kj_rho := 0; kj_lam := 0 |}.
Lemma kj_card_doc : kj_documented kj_card.
Proof. unfold kj_documented, kj_card; cbn [kj_mu kj_gamma kj_rho kj_lam]. pose proof PI_RGT_0. rewrite cos_0, sin_0. repeat split; lra. Qed.
Lemma kj_rho0 : exists c f F x v, kj_documented c /\
  (forall x, public_pdf (kj_argcheck c) (kj_pdf c) x = Fin (f x)) /\ is_cdf F f /\
  0 < x < 2 * PI /\ public_cdf (kj_argcheck c) (kj_cdf c) x = Fin v /\ F x = v + 1 / (2 * PI).
Proof.
  pose proof PI_gt3 as P3. pose proof PI_4 as P4.
  assert (Hin : kj_inside kj_card) by (split; [exact kj_card_doc|simpl kj_rho; lra]).
  destruct (kj_exact kj_card Hin) as (f & F & P & A & C & HP & P0 & E).
  exists kj_card, f, F, (PI / 2), (1 / 4). split; [exact kj_card_doc|]. split; [exact A|]. split; [exact C|].
  split; [lra|]. split.
  - rewrite (kj_documented_ok _ kj_card_doc), public_cdf_fin. f_equal. unfold pub_F. rewrite wrap_in by lra.
    destruct (Rleb_spec (2 * PI) (PI / 2)); [lra|]. destruct (Rltb_spec 0 (PI / 2)); [|lra].
    unfold kj_cdf. rewrite (kj_clean_id _ kj_card_doc) by (simpl kj_rho; lra).
    destruct (kj_not_near (PI / 2)) as [-> ->]; [lra|]. cbv zeta. unfold kj_card at 1; cbn [kj_gamma].
    pose proof kj_tol_pos as T. destruct (Rleb_spec (1 / 2) kj_tol); [lra|].
    unfold kj_single, kj_series, kj_card; cbn [kj_mu kj_gamma kj_rho kj_lam].
    destruct (Rleb_spec 0 kj_tol); [|lra]. rewrite orb_true_r.
    replace (PI / 2 / (2 * PI)) with (1 / 4) by (field; lra). rewrite pymod_small by lra. apply clip_in. lra.
  - rewrite E by lra.
    set (Q := fun x => x / (2 * PI) + sin x / (2 * PI)).
    assert (HQ : forall x, derivable_pt_lim Q x (kjU kj_card x)).
    { intros x. unfold Q. eapply dlim_eq; [|apply dlim_plus; apply dlim_divc; [apply dlim_id|apply (dlim_sin (fun y => y)); apply dlim_id]].
      unfold kjU, kjD, kj_card; cbn [kj_mu kj_gamma kj_rho kj_lam]. rewrite cos_0, !Rminus_0_r. field. lra. }
    assert (I1 : integral (kjU kj_card) 0 (PI / 2) (P (PI / 2) - P 0)).
    { apply ftc; [lra| |]; intros y Hy; [apply kjU_cont; simpl kj_rho; lra|apply HP; lra]. }
    assert (I2 : integral (kjU kj_card) 0 (PI / 2) (Q (PI / 2) - Q 0)).
    { apply ftc; [lra| |]; intros y Hy; [apply kjU_cont; simpl kj_rho; lra|apply HQ]. }
    pose proof (integral_unique _ _ _ _ _ I1 I2) as EQ. rewrite P0 in EQ. unfold Q in EQ. rewrite sin_PI2, sin_0 in EQ.
    replace (P (PI / 2)) with (PI / 2 / (2 * PI) + 1 / (2 * PI) - (0 / (2 * PI) + 0 / (2 * PI))) by lra. field. lra.
Qed.

(** ** A density that vanishes at angle 0: the truncated series is negative there and the
    reduction mod 1 turns it into almost 1. *)
Definition kj_zero : kj := {| kj_mu := PI; kj_gamma := 3 / 4; kj_rho := 1 / 2; kj_lam := 0 |}.
Lemma kj_zero_doc : kj_documented kj_zero.
Proof. unfold kj_documented, kj_zero; cbn [kj_mu kj_gamma kj_rho kj_lam]. pose proof PI_RGT_0. rewrite cos_0, sin_0. repeat split; lra. Qed.

Lemma kj_tail_half n : (1 <= n)%nat -> kj_tail (3 / 4) (1 / 2) n = 3 / (INR n * 2 ^ n).
Proof.
  intros Hn. unfold kj_tail. rewrite Nat.max_l by lia. rewrite Rmax_right by lra. destruct n as [|m]; [lia|].
  replace (S m - 1)%nat with m by lia. assert (0 < INR (S m)) by (apply lt_0_INR; lia).
  replace ((1 / 2) ^ m) with (/ 2 ^ m) by (replace (1 / 2) with (/ 2) by field; symmetry; apply pow_inv). simpl pow. assert (0 < 2 ^ m) by (apply pow_lt; lra). field. lra.
Qed.
Lemma kj_zero_terms : kj_terms (3 / 4) (1 / 2) = 37%nat.
Proof.
  apply kj_terms_unique.
  - unfold kj_max_terms. lia.
  - rewrite kj_tail_half by lia. unfold kj_tol. replace (INR 37) with 37 by (simpl; ring). lra.
  - intros j Hj. rewrite kj_tail_half by lia. unfold kj_tol.
    assert (1 <= INR j) by (apply (le_INR 1); lia). assert (INR j <= INR 36) by (apply le_INR; lia).
    replace (INR 36) with 36 in * by (simpl; ring).
    assert (0 < 2 ^ j) by (apply pow_lt; lra). assert (2 ^ j <= 2 ^ 36) by (apply Rle_pow; [lra|lia]).
    assert (B : INR j * 2 ^ j <= 36 * 2 ^ 36) by (apply Rmult_le_compat; lra).
    assert (B0 : 0 < INR j * 2 ^ j) by (apply Rmult_lt_0_compat; lra).
    apply Rlt_le_trans with (3 * / (36 * 2 ^ 36)); [lra|]. unfold Rdiv. apply Rmult_le_compat_l; [lra|].
    apply Rinv_le_contravar; assumption.
Qed.

Lemma sum_sq_half n : Rsum (map (fun p => INR p ^ 2 * (1 / 2) ^ (p - 1)) (seq 1 n)) =
  12 - 2 * (INR n ^ 2 + 4 * INR n + 6) * (1 / 2) ^ n.
Proof.
  induction n as [|n IH]; [simpl; ring|]. rewrite Rsum_seq_S, IH. replace (S n - 1)%nat with n by lia.
  rewrite S_INR. simpl pow. field.
Qed.
Lemma cos_pPI p : cos (INR p * PI) = (-1) ^ p /\ sin (INR p * PI) = 0.
Proof.
  induction p as [|p [IHc IHs]]; [simpl; rewrite Rmult_0_l; split; [apply cos_0|apply sin_0]|].
  rewrite S_INR, Rmult_plus_distr_r, Rmult_1_l, cos_plus, sin_plus, IHc, IHs, cos_PI, sin_PI. split; simpl; ring.
Qed.
Lemma kj_zero_term y p : cos (INR p * (y - PI - 0) + 0) = (-1) ^ p * cos (INR p * y).
Proof.
  replace (INR p * (y - PI - 0) + 0) with (INR p * y - INR p * PI) by ring. destruct (cos_pPI p) as [Ec Es].
  rewrite cos_minus, Ec, Es. ring.
Qed.
Lemma kj_zero_f0 : kjf kj_zero 37 0 = - ((1 / 2) ^ 38 / PI).
Proof.
  pose proof PI_RGT_0 as P0.
  pose proof (kjf_rem kj_zero 37 0) as E. cbv zeta in E. specialize (E ltac:(simpl kj_rho; lra)).
  assert (U : kjU kj_zero 0 = 0).
  { unfold kjU, kjD, kj_zero; cbn [kj_mu kj_gamma kj_rho kj_lam]. rewrite !Rminus_0_r, Rminus_0_l, cos_neg, cos_PI, cos_0. field. lra. }
  rewrite U in E. remember (kjf kj_zero 37 0) as k eqn:Hk. clear Hk U. unfold kj_zero in E; cbn [kj_mu kj_gamma kj_rho kj_lam] in E.
  unfold kjD in E. rewrite !kj_zero_term in E. rewrite !Rmult_0_r, cos_0 in E. rewrite !Rminus_0_r, (Rminus_0_l PI), cos_neg, cos_PI in E.
  replace k with (- (0 - k)) by ring. rewrite E.
  replace ((-1) ^ 38) with 1 by ring. replace ((-1) ^ 37) with (-1) by ring. simpl pow. field. lra.
Qed.
Lemma kj_zero_f y : kjf kj_zero 37 y <= - ((1 / 2) ^ 38 / PI) + 9 / 2 / PI * y ^ 2.
Proof.
  pose proof PI_RGT_0 as P0. rewrite <- kj_zero_f0.
  enough (H : kjf kj_zero 37 y - kjf kj_zero 37 0 <= 9 / 2 / PI * y ^ 2) by lra.
  unfold kjf, kj_zero; cbn [kj_mu kj_gamma kj_rho kj_lam].
  match goal with |- _ + 1 / PI * Rsum (map ?g _) - (_ + 1 / PI * Rsum (map ?h _)) <= _ =>
    replace (1 / (2 * PI) + 1 / PI * Rsum (map g (seq 1 37)) - (1 / (2 * PI) + 1 / PI * Rsum (map h (seq 1 37))))
    with (1 / PI * Rsum (map (fun p => g p - h p) (seq 1 37))) by (rewrite Rsum_map_minus; ring) end.
  apply Rle_trans with (1 / PI * Rsum (map (fun p => 3 / 8 * y ^ 2 * (INR p ^ 2 * (1 / 2) ^ (p - 1))) (seq 1 37))).
  - apply Rmult_le_compat_l; [apply Rlt_le, Rdiv_lt_0_compat; lra|]. apply Rsum_le_map. intros p _.
    rewrite !kj_zero_term, Rmult_0_r, cos_0.
    pose proof (cos_ge (INR p * y)) as C. pose proof (COS_bound (INR p * y)) as Cb.
    pose proof (pow_le (1 / 2) (p - 1) ltac:(lra)) as Hp.
    assert (Hs : (-1) ^ p = 1 \/ (-1) ^ p = -1) by (clear; induction p as [|p [IH|IH]]; simpl; rewrite ?IH; lra).
    assert (B : (-1) ^ p * cos (INR p * y) - (-1) ^ p * 1 <= (INR p * y) ^ 2 / 2) by (pose proof (pow2_ge_0 (INR p * y)); destruct Hs as [-> | ->]; lra).
    apply (Rmult_le_compat_l (3 / 4 * (1 / 2) ^ (p - 1))) in B; [|nra]. nra.
  - rewrite Rsum_map_scal, sum_sq_half.
    assert (0 <= 2 * (INR 37 ^ 2 + 4 * INR 37 + 6) * (1 / 2) ^ 37).
    { pose proof (pos_INR 37). pose proof (pow_le (1 / 2) 37 ltac:(lra)). pose proof (pow2_ge_0 (INR 37)). apply Rmult_le_pos; lra. }
    set (k := 2 * (INR 37 ^ 2 + 4 * INR 37 + 6) * (1 / 2) ^ 37) in *.
    replace (9 / 2 / PI * y ^ 2) with (1 / PI * (3 / 8 * y ^ 2 * 12)) by (field; lra).
    apply Rmult_le_compat_l; [apply Rlt_le, Rdiv_lt_0_compat; lra|]. apply Rmult_le_compat_l; [pose proof (pow2_ge_0 y); lra|lra].
Qed.
Lemma kj_zero_neg x : 0 < x <= / 10 ^ 7 -> kjS kj_zero 37 x < 0.
Proof.
  intros Hx. pose proof PI_gt3 as P3. pose proof PI_4 as P4.
  set (k := / 10 ^ 13).
  assert (Hk : 0 < k) by (unfold k; apply Rinv_0_lt_compat; apply pow_lt; lra).
  assert (M : forall u v, 0 <= u -> u <= v -> v <= x -> - kjS kj_zero 37 u - k * u <= - kjS kj_zero 37 v - k * v).
  { apply (mono_of_dlim (fun u => - kjS kj_zero 37 u - k * u) (fun u => - kjf kj_zero 37 u - k)).
    - intros u _. apply dlim_minus; [apply dlim_opp; apply kjS_d|]. eapply dlim_eq; [|apply dlim_scal; apply dlim_id]. ring.
    - intros u Hu. pose proof (kj_zero_f u) as B.
      assert (u ^ 2 <= (/ 10 ^ 7) ^ 2) by (apply pow_incr; lra).
      assert (/ 4 <= / PI <= / 3) by (split; apply Rinv_le_contravar; lra).
      assert (9 / 2 / PI * u ^ 2 <= 9 / 2 * / 3 * (/ 10 ^ 7) ^ 2).
      { unfold Rdiv at 1. apply Rmult_le_compat; try lra; try nra. }
      assert ((1 / 2) ^ 38 * / 4 <= (1 / 2) ^ 38 / PI) by (apply Rmult_le_compat_l; lra).
      unfold k. lra. }
  specialize (M 0 x ltac:(lra) ltac:(lra) ltac:(lra)). rewrite kjS_0 in M. nra.
Qed.
Lemma kj_zero_single x : 0 < x <= / 10 ^ 7 -> 1 - / 10 ^ 12 <= kj_single kj_zero x < 1.
Proof.
  intros Hx. pose proof PI_gt3 as P3.
  assert (Hin : kj_inside kj_zero) by (split; [exact kj_zero_doc|simpl kj_rho; lra]).
  destruct (kj_exact kj_zero Hin) as (f & F & P & A & C & HP & P0 & E).
  pose proof (kjS_close kj_zero P x kj_zero_doc ltac:(simpl kj_rho; lra) ltac:(lra) HP P0) as B.
  pose proof (kj_zero_neg x Hx) as N.
  assert (PP : 0 <= P x).
  { rewrite <- P0. apply (mono_of_dlim P (kjU kj_zero) 0 (2 * PI)); try lra; [exact HP|].
    intros y _. destruct Hin as [(H1 & H2 & H3 & H4 & H5) _]. apply kjU_nonneg; assumption. }
  unfold kj_single. pose proof kj_tol_pos as T.
  change (kj_series (kj_mu kj_zero) (kj_gamma kj_zero) (kj_rho kj_zero) (kj_lam kj_zero) x) with (kj_series PI (3 / 4) (1 / 2) 0 x).
  rewrite kj_series_S by lra.
  replace {| kj_mu := PI; kj_gamma := 3 / 4; kj_rho := 1 / 2; kj_lam := 0 |} with kj_zero by reflexivity.
  change (kj_gamma kj_zero) with (3 / 4) in B. change (kj_rho kj_zero) with (1 / 2) in B.
  rewrite kj_zero_terms in *. set (s := kjS kj_zero 37 x) in *. apply abs_le_inv in B.
  rewrite (pymod_unique s 1 (s + 1)).
  - rewrite clip_in by lra. lra.
  - lra.
  - exists (-1)%Z. ring.
Qed.
Lemma kj_zero_half : kj_single kj_zero PI = 1 / 2.
Proof.
  pose proof PI_gt3 as P3. pose proof kj_tol_pos as T. 
  assert (E : kjS kj_zero (kj_terms (kj_gamma kj_zero) (kj_rho kj_zero)) PI = 1 / 2).
  { unfold kjS, kj_zero; cbn [kj_mu kj_gamma kj_rho kj_lam]. 
    rewrite (map_ext _ (fun p => 0 * INR p)).
    - rewrite Rsum_map_scal. field. lra.
    - intros p. unfold kjT. replace (INR p * PI - (INR p * PI + (INR p - 1) * 0)) with 0 by ring.
      replace (INR p * PI + (INR p - 1) * 0) with (INR p * PI) by ring. destruct (cos_pPI p) as [_ ->]. rewrite sin_0. ring. }
  rewrite kj_single_in; [exact E| | |rewrite E; lra]; unfold kj_zero; cbn [kj_mu kj_gamma kj_rho kj_lam]; lra.
Qed.
Lemma kj_public c x : kj_documented c -> kj_rho c <= 99 / 100 -> kj_tol < kj_gamma c ->
  / 10 ^ 12 < x <= 2 * PI - 9 / 100000 -> public_cdf (kj_argcheck c) (kj_cdf c) x = Fin (kj_single c x).
Proof.
  intros Hd Hr Hg Hx. pose proof PI_gt3 as P3. pose proof kj_tol_pos as T. unfold kj_tol in T.
  rewrite (kj_documented_ok c Hd), public_cdf_fin. f_equal.
  unfold pub_F. rewrite wrap_in by lra. destruct (Rleb_spec (2 * PI) x); [lra|]. destruct (Rltb_spec 0 x); [|lra].
  unfold kj_cdf. rewrite (kj_clean_id c Hd Hr). destruct (kj_not_near x Hx) as [-> ->]. cbv zeta.
  destruct (Rleb_spec (kj_gamma c) kj_tol); [lra|reflexivity].
Qed.
Lemma kj_not_monotone : exists c x1 x2 v1 v2, kj_documented c /\ 0 <= x1 /\ x1 <= x2 /\ x2 <= 2 * PI /\
  public_cdf (kj_argcheck c) (kj_cdf c) x1 = Fin v1 /\ public_cdf (kj_argcheck c) (kj_cdf c) x2 = Fin v2 /\
  1 - / 10 ^ 12 <= v1 /\ v2 = 1 / 2.
Proof.
  pose proof PI_gt3 as P3. pose proof kj_tol_pos as T. unfold kj_tol in T.
  exists kj_zero, (/ 10 ^ 7), PI, (kj_single kj_zero (/ 10 ^ 7)), (kj_single kj_zero PI).
  split; [exact kj_zero_doc|]. split; [lra|]. split; [lra|]. split; [lra|].
  split; [apply kj_public; [exact kj_zero_doc| | |]; unfold kj_zero, kj_tol; cbn [kj_gamma kj_rho]; lra|].
  split; [apply kj_public; [exact kj_zero_doc| | |]; unfold kj_zero, kj_tol; cbn [kj_gamma kj_rho]; lra|].
  split; [apply kj_zero_single; lra|exact kj_zero_half].
Qed.

(** ** ppf *)
Lemma kj_newton_range c q n : forall lo hi theta, lo <= theta <= hi ->
  let '(_, l, h, t) := kj_newton c q n lo hi theta in lo <= l /\ l <= t <= h /\ h <= hi.
Proof.
  induction n as [|n IH]; intros lo hi theta H; cbn [kj_newton]; [lra|].
  destruct (Rleb (Rabs (kj_single c theta - q)) (/ 10 ^ 12) && Rleb (hi - lo) (/ 10 ^ 10)); [lra|].
  set (hi' := if Rltb 0 (kj_single c theta - q) then Rmin hi theta else hi).
  set (lo' := if Rltb 0 (kj_single c theta - q) then lo else Rmax lo theta).
  assert (B : lo <= lo' /\ lo' <= hi' /\ hi' <= hi).
  { unfold hi', lo'. destruct (Rltb 0 (kj_single c theta - q)).
    - rewrite Rmin_right by lra. lra.
    - rewrite Rmax_right by lra. lra. }
  destruct (Rleb (kj_pdf c theta) 0).
  - specialize (IH lo' hi' (1 / 2 * (lo' + hi')) ltac:(lra)).
    destruct (kj_newton c q n lo' hi' (1 / 2 * (lo' + hi'))) as [[[b l] h] t]. lra.
  - set (cand := theta - (kj_single c theta - q) / kj_pdf c theta).
    set (t' := if Rleb cand lo' || Rleb hi' cand then 1 / 2 * (lo' + hi') else cand).
    assert (B2 : lo' <= t' <= hi').
    { unfold t'. destruct (Rleb_spec cand lo'); [cbn; lra|]. destruct (Rleb_spec hi' cand); cbn; lra. }
    destruct (Rleb (hi' - lo') (/ 10 ^ 10)); [lra|].
    specialize (IH lo' hi' t' B2). destruct (kj_newton c q n lo' hi' t') as [[[b l] h] t]. lra.
Qed.
Lemma kj_bisect_range c q n : forall lo hi, lo <= hi -> lo <= kj_bisect c q n lo hi <= hi.
Proof.
  induction n as [|n IH]; intros lo hi H; cbn [kj_bisect]; [lra|].
  destruct (Rltb q (kj_single c (1 / 2 * (lo + hi)))).
  - specialize (IH lo (1 / 2 * (lo + hi)) ltac:(lra)). lra.
  - specialize (IH (1 / 2 * (lo + hi)) hi ltac:(lra)). lra.
Qed.
Lemma kj_ppf_range c q : kj_argcheck c = true -> 0 <= q <= 1 ->
  exists x, public_ppf (kj_argcheck c) (kj_ppf c) q = Fin x /\ 0 <= x <= 2 * PI.
Proof.
  intros Ha Hq. pose proof PI_RGT_0 as P0. rewrite Ha. unfold public_ppf. cbn [negb].
  destruct (Rltb_spec 0 q); cbn [andb].
  - destruct (Rltb_spec q 1).
    + eexists. split; [reflexivity|]. unfold kj_ppf. destruct (Rleb _ kj_tol); [nra|].
      destruct (isclose_tol _ _ q 0); [lra|]. destruct (isclose_tol _ _ q 1); [lra|].
      destruct (kj_newton _ _ _ _ _ _) as [[[b l] h] t].
      match goal with |- 0 <= pymod ?a ?m <= _ => pose proof (pymod_range a m ltac:(lra)) end. lra.
    + replace q with 1 by lra. destruct (Reqb_spec 1 0); [lra|]. destruct (Reqb_spec 1 1); [|lra]. exists (2 * PI). split; [reflexivity|lra].
  - replace q with 0 by lra. destruct (Reqb_spec 0 0); [|lra]. exists 0. split; [reflexivity|lra].
Qed.
Lemma kj_ppf_wrong : exists c q x f F, kj_documented c /\ 0 < q < 1 /\
  public_ppf (kj_argcheck c) (kj_ppf c) q = Fin x /\
  (forall x, public_pdf (kj_argcheck c) (kj_pdf c) x = Fin (f x)) /\ is_cdf F f /\
  F x <= q / 10 ^ 3.
Proof.
  pose proof PI_gt3 as P3. pose proof PI_4 as P4.
  assert (Hin : kj_inside kj_zero) by (split; [exact kj_zero_doc|simpl kj_rho; lra]).
  destruct (kj_exact kj_zero Hin) as (f & F & P & A & C & HP & P0 & E).
  set (q := / 10 ^ 8).
  assert (Hx : exists x, public_ppf (kj_argcheck kj_zero) (kj_ppf kj_zero) q = Fin x /\ 0 <= x <= q * (2 * PI)).
  { rewrite (kj_documented_ok _ kj_zero_doc). unfold public_ppf. cbn [negb].
    destruct (Rltb_spec 0 q) as [Q0|Q0]; [|unfold q in Q0; lra]. destruct (Rltb_spec q 1) as [Q1|Q1]; [|unfold q in Q1; lra]. cbn [andb].
    eexists. split; [reflexivity|]. unfold kj_ppf. rewrite (kj_clean_id _ kj_zero_doc) by (simpl kj_rho; lra). cbv zeta.
    pose proof kj_tol_pos as T. destruct (Rleb_spec (kj_gamma kj_zero) kj_tol) as [G|_]; [simpl kj_gamma in G; lra|].
    replace (isclose_tol (/ 100000) (/ 10 ^ 12) q 0) with false
      by (symmetry; unfold isclose_tol, q; apply Rleb_false; rewrite Rminus_0_r, Rabs_R0, Rabs_pos_eq; lra).
    replace (isclose_tol (/ 100000) (/ 10 ^ 12) q 1) with false
      by (symmetry; unfold isclose_tol, q; apply Rleb_false; rewrite Rabs_R1, Rabs_left; lra).
    assert (Th : 0 < q * (2 * PI) <= / 10 ^ 7) by (unfold q; lra).
    pose proof (kj_zero_single _ Th) as S1.
    assert (E60 : exists n, 60%nat = S n) by (exists 59%nat; reflexivity). destruct E60 as [n60 ->]. cbn [kj_newton].
    assert (Hres : 0 < kj_single kj_zero (q * (2 * PI)) - q) by (unfold q in *; lra).
    replace (Rleb (Rabs (kj_single kj_zero (q * (2 * PI)) - q)) (/ 10 ^ 12)) with false
      by (symmetry; apply Rleb_false; rewrite Rabs_pos_eq; unfold q in *; lra).
    cbn [andb]. replace (Rltb 0 (kj_single kj_zero (q * (2 * PI)) - q)) with true by (symmetry; apply Rltb_true; exact Hres).
    rewrite Rmin_right by lra. set (h0 := q * (2 * PI)) in *.
    assert (G : forall b l h t, (0 <= l /\ l <= t <= h /\ h <= h0) ->
       0 <= pymod (if b : bool then t else kj_bisect kj_zero q 30 l h) (2 * PI) <= h0).
    { intros b l h t (H1 & H2 & H3). destruct b.
      - rewrite pymod_small; lra.
      - pose proof (kj_bisect_range kj_zero q 30 l h ltac:(lra)). rewrite pymod_small; lra. }
    destruct (Rleb (kj_pdf kj_zero h0) 0).
    - pose proof (kj_newton_range kj_zero q n60 0 h0 (1 / 2 * (0 + h0)) ltac:(lra)) as N.
      destruct (kj_newton kj_zero q n60 0 h0 (1 / 2 * (0 + h0))) as [[[b l] h] t]. apply G. exact N.
    - set (cand := h0 - (kj_single kj_zero h0 - q) / kj_pdf kj_zero h0).
      set (t' := if Rleb cand 0 || Rleb h0 cand then 1 / 2 * (0 + h0) else cand).
      assert (B2 : 0 <= t' <= h0).
      { unfold t'. destruct (Rleb_spec cand 0); [cbn; lra|]. destruct (Rleb_spec h0 cand); cbn; lra. }
      destruct (Rleb (h0 - 0) (/ 10 ^ 10)).
      + apply (G true 0 h0 t'). lra.
      + pose proof (kj_newton_range kj_zero q n60 0 h0 t' B2) as N.
        destruct (kj_newton kj_zero q n60 0 h0 t') as [[[b l] h] t]. apply G. exact N. }
  destruct Hx as (x & Ex & Hx). exists kj_zero, q, x, f, F.
  split; [exact kj_zero_doc|]. split; [unfold q; lra|]. split; [exact Ex|]. split; [exact A|]. split; [exact C|].
  assert (Hx2 : 0 <= x <= / 10 ^ 7) by (unfold q in Hx; lra).
  rewrite E by lra.
  pose proof (kjS_close kj_zero P x kj_zero_doc ltac:(simpl kj_rho; lra) ltac:(lra) HP P0) as B.
  change (kj_gamma kj_zero) with (3 / 4) in B. change (kj_rho kj_zero) with (1 / 2) in B. rewrite kj_zero_terms in B.
  apply abs_le_inv in B.
  assert (N : kjS kj_zero 37 x <= 0) by (destruct (Req_dec x 0) as [->|]; [rewrite kjS_0; lra|left; apply kj_zero_neg; lra]).
  unfold q. lra.
Qed.
