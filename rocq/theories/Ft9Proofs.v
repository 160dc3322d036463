(** Likelihood, argument checks and sampler of the flat-topped distribution; special cases of the
    inverse Batschelet distribution. *)
From Verif Require Import Prelude NpModel NpProofs CircleSpec IntSpec IntProofs DistModel DistSpec DistProofs Dist2Proofs Dist4Proofs Dist5Proofs
  Dist6Proofs Dist7Proofs KjProofs Kj2Proofs VonModel VonSpec VonProofs Von3Proofs Von4Proofs JpProofs Jp3Proofs Wn3Proofs Wn6Proofs Ws3Proofs GaussProofs Von6Proofs Jp5Proofs
  FtModel FtSpec FtProofs Ft2Proofs Ft3Proofs Ft4Proofs Ft5Proofs Ft7Proofs Ft8Proofs IbModel IbProofs Ib2Proofs Ib3Proofs Ib4Proofs Ib5Proofs.

(** The likelihood *)
Lemma ft_nll_law kl kh nl nh s mu kappa nu : 0 <= mu <= 2 * PI -> kl <= kappa <= kh -> nl <= nu <= nh -> ft_ok mu kappa nu = true ->
  exists f, (forall x, ft_public_pdf mu kappa nu x = Fin (f x)) /\ (forall x, 0 < f x) /\ ft_nll kl kh nl nh s mu kappa nu = Fin (- Rsum (map (fun p => snd p * ln (f (fst p))) s)).
Proof.
  intros Hm Hk Hn Hok. pose proof PI_gt3. pose proof (proj1 (ft_ok_spec _ _ _) Hok) as (_ & Hk' & _). exists (ft_pdf mu kappa nu).
  split; [intros; apply ft_public_eq, Hok|]. split; [intros; apply ft_pdf_pos, Hk'|]. unfold ft_nll.
  rewrite (proj2 (Rleb_true 0 mu)), (proj2 (Rleb_true mu (2 * PI))), (proj2 (Rleb_true kl kappa)), (proj2 (Rleb_true kappa kh)), (proj2 (Rleb_true nl nu)), (proj2 (Rleb_true nu nh)) by lra.
  cbn [negb andb]. cbv zeta. destruct (Rleb kappa ft_ktol) eqn:E; f_equal; f_equal; f_equal; apply map_ext; intros [x w]; cbn [fst snd]; f_equal; rewrite ft_pdf_eq, E by exact Hk'.
  - unfold Rdiv. rewrite Rmult_1_l, ln_Rinv by lra. reflexivity.
  - unfold Rdiv. rewrite ln_mult by (try apply exp_pos; apply Rinv_0_lt_compat, ft_T_pos). rewrite ln_Rinv by apply ft_T_pos. unfold ft_shape. rewrite ln_exp.
    destruct (centre_turns (x - pymod mu (2 * PI))) as [z Ez]. rewrite Ez, ft_log_turns.
    destruct (pymod_cong mu (2 * PI)) as [z2 E2].
    replace (x - pymod mu (2 * PI)) with (x - mu + 2 * PI * IZR z2) by lra. rewrite ft_log_turns. f_equal.
    rewrite <- (ln_exp (ft_lognorm kappa nu)), ft_norm_T, ln_Rinv by apply ft_T_pos. reflexivity.
Qed.
Lemma ft_nll_out kl kh nl nh s mu kappa nu : ~ (0 <= mu <= 2 * PI /\ kl <= kappa <= kh /\ nl <= nu <= nh) -> ft_nll kl kh nl nh s mu kappa nu = PInf.
Proof.
  intros N. unfold ft_nll. destruct (Rleb_spec 0 mu); destruct (Rleb_spec mu (2 * PI)); cbn [negb andb]; try reflexivity.
  destruct (Rleb_spec kl kappa); destruct (Rleb_spec kappa kh); cbn [negb andb]; try reflexivity.
  destruct (Rleb_spec nl nu); destruct (Rleb_spec nu nh); cbn [negb andb]; try reflexivity. exfalso. apply N. lra.
Qed.
(** The argument checks *)
Lemma clip_hi k hi : 0 <= hi -> hi <= k -> clip k 0 hi = hi. Proof. intros. unfold clip. rewrite Rmax_left, Rmin_right by lra. reflexivity. Qed.
Lemma clip_lo k hi : 0 <= hi -> k <= 0 -> clip k 0 hi = 0. Proof. intros. unfold clip. rewrite Rmax_right, Rmin_left by lra. reflexivity. Qed.
Lemma ft_guard pchip guess x q : (exists y, ft_public_pdf 1 5000 0 x = Fin y) /\ (exists y, ft_public_pdf 1 (- 5) 0 x = Fin y) /\
  ft_public_cdf pchip 1 5000 0 x = NaN /\ ft_public_cdf pchip 1 (- 5) 0 x = NaN /\ ft_public_ppf pchip guess 1 5000 0 q = NaN /\ ft_public_ppf pchip guess 1 (- 5) 0 q = NaN.
Proof.
  pose proof PI_gt3. assert (B1 : ft_ok 1 5000 0 = false). { apply Bool.not_true_is_false. intros T. apply ft_ok_spec in T. lra. }
  assert (B2 : ft_ok 1 (- 5) 0 = false). { apply Bool.not_true_is_false. intros T. apply ft_ok_spec in T. lra. }
  assert (O1 : ft_ok 1 1000 0 = true) by (apply ft_ok_spec; lra). assert (O2 : ft_ok 1 0 0 = true) by (apply ft_ok_spec; lra).
  split; [|split; [|repeat split]].
  - unfold ft_public_pdf. cbv zeta. rewrite (clip_hi 5000 ft_kmax) by (unfold ft_kmax; lra). unfold ft_kmax at 1. rewrite O1, public_pdf_fin. eexists. reflexivity.
  - unfold ft_public_pdf. cbv zeta. rewrite (clip_lo (- 5) ft_kmax) by (unfold ft_kmax; lra). rewrite O2, public_pdf_fin. eexists. reflexivity.
  - unfold ft_public_cdf, public_cdf. rewrite B1. reflexivity.
  - unfold ft_public_cdf, public_cdf. rewrite B2. reflexivity.
  - unfold ft_public_ppf, public_ppf. rewrite B1. reflexivity.
  - unfold ft_public_ppf, public_ppf. rewrite B2. reflexivity.
Qed.
Lemma ib_guard iv root pchip guess : ib_answer iv root pchip guess [] (CallPdf 1 (- 5) 0 0 1) = NaN /\
  (exists y, ib_answer iv root pchip guess [] (CallCdf 1 (- 5) 0 0 1) = Fin y) /\ (exists y, ib_answer iv root pchip guess [] (CallPpf 1 (- 5) 0 0 (1 / 2)) = Fin y).
Proof.
  pose proof PI_gt3. assert (B : ib_ok 1 (- 5) 0 0 = false). { apply Bool.not_true_is_false. intros T. apply ib_ok_spec in T. lra. }
  assert (O : ib_ok 1 0 0 0 = true) by (apply ib_ok_spec; lra). assert (E : clip (- 5) 0 ib_kmax = 0) by (apply clip_lo; unfold ib_kmax; lra).
  assert (E0 : clip 0 0 ib_kmax = 0) by (apply clip_lo; unfold ib_kmax; lra). assert (T : Rleb 0 ib_ktol = true) by (apply Rleb_true; unfold ib_ktol; left; apply Rinv_0_lt_compat; lra).
  unfold ib_answer. cbn [ib_after fold_left ib_run]. split; [|split].
  - unfold ib_public_pdf. rewrite B. reflexivity.
  - unfold ib_public_cdf. cbv zeta. rewrite E, O. cbn [negb]. rewrite (wrap_in 1), (proj2 (Rleb_false (2 * PI) 1)), (proj2 (Rltb_true 0 1)) by lra.
    unfold ib_cdf. rewrite E0, T. cbv zeta. destruct (isclose_tol _ _ _ _); eexists; reflexivity.
  - unfold ib_public_ppf. cbv zeta. rewrite E, O. cbn [negb]. rewrite (proj2 (Rltb_true 0 (1 / 2))), (proj2 (Rltb_true (1 / 2) 1)) by lra. cbn [andb].
    unfold ib_ppf. rewrite E0, T. eexists. reflexivity.
Qed.

(** The sampler *)
Lemma von_pdf_turns iv mu k x (z : Z) : von_pdf iv (mu + 2 * PI * IZR z) k x = von_pdf iv mu k x.
Proof. unfold von_pdf. replace (x - (mu + 2 * PI * IZR z)) with (x - mu + 2 * PI * IZR (- z)) by (rewrite opp_IZR; ring). rewrite NpProofs.cos_turns. reflexivity. Qed.
Lemma ft_rvs_law iv mu kappa nu : is_iv iv -> ft_ok mu kappa nu = true -> / 10 ^ 9 < kappa ->
  exists c k f, 0 < c /\ 0 < k /\ (forall x, ft_public_pdf mu kappa nu x = Fin (f x)) /\
    (0 <= nu \/ / 10 ^ 6 <= kappa * (1 + nu) ^ 2 -> forall x, c * f x <= von_pdf iv mu k x) /\ (forall x, c * f x <= (1 + / 10 ^ 5) * von_pdf iv mu k x) /\
    forall stream, Forall (fun p => 0 < snd p) stream ->
      exists acc, (forall p, In p stream -> (acc p = true <-> snd p * von_pdf iv mu k (fst p) <= c * f (fst p))) /\
      forall uniforms total, ft_rvs iv mu kappa nu uniforms stream total =
        if Nat.leb total (length (filter acc stream)) then Some (map (fun p => pymod (fst p) (2 * PI)) (firstn total (filter acc stream))) else None.
Proof.
  intros Hiv Hok Hs. pose proof PI_gt3. pose proof (proj1 (ft_ok_spec _ _ _) Hok) as (Hm & Hk & Hn). destruct (pymod_cong mu (2 * PI)) as [z Ez].
  pose proof (pymod_range mu (2 * PI) ltac:(lra)) as Rm. set (m := pymod mu (2 * PI)) in *.
  assert (Hok' : ft_ok m kappa nu = true) by (apply ft_ok_spec; lra). destruct (ft_rejection iv m kappa nu Hiv Hok' Hs) as (c & k & f & c0 & k0 & Ef & Ea & Eb & Ec).
  assert (Ev : forall x, von_pdf iv mu k x = von_pdf iv m k x) by (intros x; rewrite Ez; apply von_pdf_turns).
  assert (VP : forall x, 0 < von_pdf iv m k x). { intros x. unfold von_pdf. apply Rdiv_lt_0_compat; [apply exp_pos|]. pose proof (i0_ge1 iv k Hiv). apply Rmult_lt_0_compat; lra. }
  exists c, k, f. split; [exact c0|]. split; [exact k0|]. split; [|split; [|split]].
  - intros x. rewrite <- (Ef x), !ft_public_eq by assumption. f_equal. rewrite !ft_pdf_eq by exact Hk. destruct (Rleb kappa ft_ktol); [reflexivity|]. f_equal. unfold ft_shape. f_equal.
    replace (x - m) with (x - mu + 2 * PI * IZR z) by lra. rewrite ft_log_turns. reflexivity.
  - intros D x. rewrite <- Ea, Ev. pose proof (Ec D x). pose proof (VP x). nra.
  - intros x. rewrite <- Ea, Ev. pose proof (Eb x). pose proof (VP x). apply Rmult_le_compat_r; lra.
  - intros stream F. exists (fun p => Rleb (ln (snd p)) (ft_log_accept iv m kappa nu (fst p))). split.
    + intros [x u] Hin. rewrite Forall_forall in F. specialize (F _ Hin). cbn [fst snd] in *. rewrite Rleb_true, Ev, <- Ea. pose proof (VP x) as V. split; intros L.
      * apply Rmult_le_compat_r; [lra|]. rewrite <- (exp_ln u) by exact F. apply expm_le, L.
      * apply Rmult_le_reg_r in L; [|exact V]. rewrite <- (ln_exp (ft_log_accept iv m kappa nu x)). apply ln_le_mono; assumption.
    + intros uniforms total. unfold ft_rvs. fold m. rewrite (clip_in kappa 0 ft_kmax) by (unfold ft_kmax; lra). cbv zeta. rewrite (proj2 (Rleb_false kappa ft_ktol)) by exact Hs. reflexivity.
Qed.

(** ** Special cases of the inverse Batschelet density *)
Lemma ib_vonmises iv root pchip guess xi kappa x : is_iv iv -> is_root root -> 0 <= xi <= 2 * PI -> ib_ktol < kappa <= ib_kmax ->
  ib_answer iv root pchip guess [] (CallPdf xi kappa 0 0 x) = Fin (von_pdf iv xi kappa x).
Proof.
  intros Hiv Hr Hx Hk. pose proof PI_gt3. assert (k0 : 0 < kappa) by (unfold ib_ktol in Hk; assert (0 < / 10 ^ 9) by (apply Rinv_0_lt_compat; lra); lra).
  assert (Hok : ib_ok xi kappa 0 0 = true) by (apply ib_ok_spec; lra). assert (Hm : lam_mid 0) by (unfold lam_mid; lra).
  assert (Hg : lam_good kappa 0). { right. split; [right; exact Hm|]. unfold ib_q. rewrite Rabs_R0. lra. }
  destruct (ib_J_ex kappa 0) as [J HJ]. destruct (ib_I_ex kappa 0) as (I & HI & I0). destruct (ib_J iv kappa 0 I J Hiv ltac:(lra) ltac:(lra) HI HJ) as (EJ & _ & PJ).
  destruct (ib_c_good iv kappa 0 J Hiv Hk Hg HJ) as (c & Ec & c0 & J0 & C0 & _). specialize (C0 (or_introl eq_refl)).
  unfold ib_answer. cbn [ib_run ib_after fold_left]. rewrite (ib_pdf_val iv root ib_fresh xi kappa 0 0 c Hr (fresh_right iv) Hok Hk (or_intror (or_intror Hm)) Ec c0). f_equal.
  destruct (ib_onto root 0 0 (x - xi) Hr ltac:(lra) ltac:(lra)) as [u Hu]. cbv zeta in Hu. pose proof (ib_G_at root kappa 0 0 u Hr ltac:(lra) ltac:(left; reflexivity) ltac:(lra)) as G. cbv zeta in G.
  rewrite <- Hu in G. rewrite G. unfold von_pdf. replace c with (1 / J) by (apply Rmult_eq_reg_r with J; [rewrite C0; field; lra|lra]).
  replace (x - xi) with (u - 1 / 2 * (1 - 0) * sin u) by (rewrite Hu; field). replace J with (2 * PI * iv 0%nat kappa) by lra. unfold Rdiv. ring.
Qed.
Lemma ib_cut iv root pchip guess xi kappa nu lam x : ib_ok xi kappa nu lam = true -> 700 <= kappa ->
  ib_answer iv root pchip guess [] (CallPdf xi kappa nu lam x) = ib_answer iv root pchip guess [] (CallPdf xi 700 nu lam x).
Proof.
  intros Hok Hk. assert (Hok' : ib_ok xi 700 nu lam = true) by (apply ib_ok_spec in Hok; apply ib_ok_spec; lra).
  unfold ib_answer. cbn [ib_run ib_after fold_left]. unfold ib_public_pdf. rewrite Hok, Hok'. unfold ib_pdf. rewrite (clip_hi kappa ib_kmax), (clip_hi 700 ib_kmax) by (unfold ib_kmax; lra). reflexivity.
Qed.
Lemma ib_cut_refutes iv root pchip guess : is_iv iv -> is_root root ->
  exists x y, ib_answer iv root pchip guess [] (CallPdf 0 1000 0 0 x) = Fin y /\ y <> von_pdf iv 0 1000 x.
Proof.
  intros Hiv Hr. pose proof PI_gt3. assert (Hok : ib_ok 0 1000 0 0 = true) by (apply ib_ok_spec; lra).
  assert (E : forall x, ib_answer iv root pchip guess [] (CallPdf 0 1000 0 0 x) = Fin (von_pdf iv 0 700 x)).
  { intros x. rewrite ib_cut by (try exact Hok; lra). apply ib_vonmises; try assumption; unfold ib_ktol, ib_kmax; lra. }
  destruct (Req_dec (von_pdf iv 0 700 0) (von_pdf iv 0 1000 0)) as [E0|N0]; [|exists 0; eexists; split; [apply E|exact N0]].
  exists PI. eexists. split; [apply E|]. intros E1. unfold von_pdf in E0, E1. rewrite Rminus_0_r in E0, E1. rewrite cos_0, !Rmult_1_r in E0. rewrite cos_PI in E1.
  pose proof (i0_ge1 iv 700 Hiv) as G7. pose proof (i0_ge1 iv 1000 Hiv) as G1.
  set (a := iv 0%nat 700) in *. set (b := iv 0%nat 1000) in *.
  assert (PP : 0 < 2 * PI * a * b) by (apply Rmult_lt_0_compat; [apply Rmult_lt_0_compat|]; lra).
  assert (C0 : exp 700 * b = exp 1000 * a). { apply Rmult_eq_reg_r with (/ (2 * PI * a * b)); [|apply Rinv_neq_0_compat; lra].
    replace (exp 700 * b * / (2 * PI * a * b)) with (exp 700 / (2 * PI * a)) by (field; lra). replace (exp 1000 * a * / (2 * PI * a * b)) with (exp 1000 / (2 * PI * b)) by (field; lra). exact E0. }
  assert (C1 : exp (700 * -1) * b = exp (1000 * -1) * a). { apply Rmult_eq_reg_r with (/ (2 * PI * a * b)); [|apply Rinv_neq_0_compat; lra].
    replace (exp (700 * -1) * b * / (2 * PI * a * b)) with (exp (700 * -1) / (2 * PI * a)) by (field; lra). replace (exp (1000 * -1) * a * / (2 * PI * a * b)) with (exp (1000 * -1) / (2 * PI * b)) by (field; lra). exact E1. }
  assert (L1 : exp 700 < exp 1000) by (apply exp_increasing; lra). assert (L2 : exp (1000 * -1) < exp (700 * -1)) by (apply exp_increasing; lra).
  pose proof (exp_pos 700). pose proof (exp_pos (1000 * -1)). assert (a < b) by nra. nra.
Qed.
(** lambda = -1 and nu = 0: the shape is the flat-topped one with nu = -1. *)
Lemma ib_flat iv root pchip guess xi kappa : is_iv iv -> is_root root -> 0 <= xi <= 2 * PI -> ib_ktol < kappa <= ib_kmax ->
  exists f, (forall x, ib_answer iv root pchip guess [] (CallPdf xi kappa 0 (- 1) x) = Fin (f x)) /\ (forall x, 0 < f x) /\ proportional f (fun x => flat_shape kappa (- 1) (x - xi)).
Proof.
  intros Hiv Hr Hx Hk. pose proof PI_gt3. assert (k0 : 0 < kappa) by (unfold ib_ktol in Hk; assert (0 < / 10 ^ 9) by (apply Rinv_0_lt_compat; lra); lra). assert (Hok : ib_ok xi kappa 0 (- 1) = true) by (apply ib_ok_spec; lra).
  destruct end_close as (M1 & M2 & M3 & M4 & M5 & M6).
  assert (Ec : ib_c iv kappa (- 1) = Fin (/ ib_T kappa (- 1))).
  { unfold ib_c. rewrite (clip_in kappa 0 ib_kmax) by (unfold ib_ktol in Hk; assert (0 < / 10 ^ 9) by (apply Rinv_0_lt_compat; lra); lra). cbv zeta. rewrite (proj2 (Rleb_false kappa ib_ktol)), M3 by lra.
    unfold ib_c_numeric. rewrite M1. rewrite usable_fin by apply exp_pos. rewrite exp_Ropp, ib_int_T. reflexivity. }
  pose proof (ib_T_pos kappa (- 1)) as TP.
  exists (fun x => / ib_T kappa (- 1) * ib_G root kappa 0 (- 1) (x - xi)). split; [|split].
  - intros x. unfold ib_answer. cbn [ib_run ib_after fold_left].
    apply (ib_pdf_val iv root ib_fresh xi kappa 0 (- 1) _ Hr (fresh_right iv) Hok Hk (or_intror (or_introl eq_refl)) Ec (Rinv_0_lt_compat _ TP)).
  - intros x. apply Rmult_lt_0_compat; [apply Rinv_0_lt_compat, TP|apply ib_G_pos].
  - assert (G : forall phi, ib_G root kappa 0 (- 1) phi = flat_shape kappa (- 1) phi).
    { intros phi. destruct (ib_onto root 0 (- 1) phi Hr ltac:(lra) ltac:(lra)) as [u Hu]. cbv zeta in Hu. pose proof (ib_G_at root kappa 0 (- 1) u Hr ltac:(lra) ltac:(left; reflexivity) ltac:(lra)) as G. cbv zeta in G.
      rewrite <- Hu in G. rewrite G. replace phi with u by (rewrite Hu; field). unfold flat_shape. f_equal. f_equal. f_equal. field. }
    intros x y. cbv beta. rewrite !G. ring.
Qed.

(** Packaging *)
Lemma ft_cdf_refuted pchip : is_pchip pchip -> exists mu kappa nu x y a, ft_ok mu kappa nu = true /\ 0 <= x <= y /\ y < 2 * PI - 1 / 2 /\
  ft_public_cdf pchip mu kappa nu x = Fin a /\ 1 / 2 <= a /\ ft_public_cdf pchip mu kappa nu y = Fin 0.
Proof.
  intros HP. pose proof PI_gt3. destruct (ft_cdf_falls pchip HP) as (a & E1 & A & E2). exists (7 / 2), 1000, 0, (7 / 2), (11 / 2), a. split; [apply ft_ok_spec; lra|].
  split; [lra|]. split; [lra|]. split; [exact E1|]. split; [exact A|exact E2].
Qed.
Lemma ft_guard_refuted : exists mu kappa nu x q, (exists y, ft_public_pdf mu kappa nu x = Fin y) /\
  forall pchip guess, ft_public_cdf pchip mu kappa nu x = NaN /\ ft_public_ppf pchip guess mu kappa nu q = NaN.
Proof.
  exists 1, 5000, 0, 1, (1 / 2). split; [exact (proj1 (ft_guard (fun _ _ _ _ => 0) (fun _ => 0) 1 (1 / 2)))|]. intros pchip guess. destruct (ft_guard pchip guess 1 (1 / 2)) as (_ & _ & A & _ & B & _). split; assumption.
Qed.
Lemma ib_guard_refuted iv root pchip guess : exists xi kappa nu lam x q,
  ib_answer iv root pchip guess [] (CallPdf xi kappa nu lam x) = NaN /\
  (exists y, ib_answer iv root pchip guess [] (CallCdf xi kappa nu lam x) = Fin y) /\ (exists y, ib_answer iv root pchip guess [] (CallPpf xi kappa nu lam q) = Fin y).
Proof. exists 1, (- 5), 0, 0, 1, (1 / 2). exact (ib_guard iv root pchip guess). Qed.

(** * Levels next to one *)
Lemma ft_ppf_end pchip guess mu kappa nu : ft_ok mu kappa nu = true -> exists q, 0 < q < 1 /\
  ft_public_ppf pchip guess mu kappa nu q = Fin (2 * PI) /\ ft_public_cdf pchip mu kappa nu (2 * PI) = Fin 1.
Proof.
  intros Hok. pose proof PI_gt3. exists (1 - / 10 ^ 13). split; [lra|]. split.
  - unfold ft_public_ppf, public_ppf. rewrite Hok. cbn [negb]. rewrite (proj2 (Rltb_true 0 _)), (proj2 (Rltb_true _ 1)) by lra. cbn [andb]. f_equal.
    assert (C1 : isclose_tol 0 (/ 10 ^ 12) (1 - / 10 ^ 13) 1 = true) by (unfold isclose_tol; apply Rleb_true; rewrite Rabs_left, Rabs_R1 by lra; lra).
    assert (C0 : isclose_tol 0 (/ 10 ^ 12) (1 - / 10 ^ 13) 0 = false) by (unfold isclose_tol; apply Rleb_false; rewrite Rminus_0_r, Rmult_0_l, Rabs_pos_eq by lra; lra).
    unfold ft_ppf, table_ppf. rewrite C1. destruct (Rleb kappa ft_ktol); [reflexivity|]. cbv zeta. rewrite C0. reflexivity.
  - unfold ft_public_cdf, public_cdf. rewrite Hok. cbn [negb]. cbv zeta. rewrite wrap_in by lra. rewrite (proj2 (Rleb_true (2 * PI) (2 * PI))) by lra. reflexivity.
Qed.
