(** What the samplers of the Jones-Pewsey laws return, about the location the user gave. *)
From Verif Require Import Prelude NpModel NpProofs UtilsModel DescModel Desc2Model Desc2Proofs CircleSpec IntSpec IntProofs DistModel DistSpec DistProofs Dist2Proofs Dist4Proofs Dist5Proofs
  Dist6Proofs Dist7Proofs Dist8Proofs KjProofs Kj2Proofs VonModel VonSpec VonProofs Von2Proofs Von3Proofs Von4Proofs Von6Proofs GaussProofs Ws2Proofs Ws3Proofs Wn6Proofs
  JpModel JpSpec JpProofs Jp2Proofs Jp5Proofs Jp6Proofs FtModel FtSpec Ft9Proofs IbModel IbProofs JsModel JsProofs Js2Proofs Js3Proofs Js4Proofs Js5Proofs.

Lemma env_loop_all acc b : forallb acc b = true -> env_loop acc [b] (length b) = Some (map fst b).
Proof.
  intros H. assert (F : filter acc b = b).
  { induction b as [|p b IH]; [reflexivity|]. simpl in *. apply andb_true_iff in H. destruct H as [H1 H2]. rewrite H1, IH by exact H2. reflexivity. }
  destruct b as [|p b]; [reflexivity|]. assert (E : length (p :: b) = S (length b)) by reflexivity. unfold env_loop; fold env_loop. rewrite E. rewrite <- E at 1. rewrite Nat.eqb_refl. cbv zeta. rewrite F, map_length, E, Nat.sub_diag. simpl. rewrite app_nil_r. reflexivity.
Qed.
Lemma turn_of mu : exists z : Z, pymod mu (2 * PI) = mu + 2 * PI * IZR z.
Proof. destruct (pymod_cong mu (2 * PI)) as [z E]. exists (- z)%Z. rewrite opp_IZR. lra. Qed.
Lemma mod_range mu : 0 <= pymod mu (2 * PI) <= 2 * PI.
Proof. pose proof PI_RGT_0. pose proof (pymod_range mu (2 * PI) ltac:(lra)). lra. Qed.

Lemma jp_pdf_mod iv lpmv quad mu kappa psi x : is_iv iv -> is_lpmv lpmv -> 0 <= mu <= 2 * PI -> jp_ktol <= kappa -> Rabs (kappa * psi) <= 500 ->
  (forall m, quad_exact quad (fun x => jp_kernel kappa psi (x - m)) (- PI) PI) -> jp_pdf iv lpmv quad (pymod mu (2 * PI)) kappa psi x = jp_pdf iv lpmv quad mu kappa psi x.
Proof.
  intros H Hl Hm Hk HA HQ. rewrite !jp_pdf_kernel by exact Hk. destruct (jp_c_mass iv lpmv quad mu kappa psi H Hl Hm Hk HA (HQ mu)) as (Z & _ & I & E).
  destruct (jp_c_mass iv lpmv quad (pymod mu (2 * PI)) kappa psi H Hl (mod_range mu) Hk HA (HQ _)) as (Z2 & _ & I2 & E2). rewrite E, E2, (integral_unique _ _ _ _ _ I I2). f_equal.
  destruct (turn_of mu) as [z Ez]. rewrite Ez. replace (x - mu) with (x - (mu + 2 * PI * IZR z) + 2 * PI * IZR z) by ring. symmetry. apply jp_kernel_turns.
Qed.
Lemma as_pdf_mod quad xi kappa psi nu x : 0 <= xi <= 2 * PI -> jp_ktol <= kappa ->
  (forall m, quad_exact quad (fun x => as_kernel kappa psi nu (x - m)) (- PI) PI) -> as_pdf quad (pymod xi (2 * PI)) kappa psi nu x = as_pdf quad xi kappa psi nu x.
Proof.
  intros Hm Hk HQ. destruct (as_pdf_kernel quad xi kappa psi nu Hm Hk (HQ xi)) as (Z & _ & I & E). destruct (as_pdf_kernel quad _ kappa psi nu (mod_range xi) Hk (HQ _)) as (Z2 & _ & I2 & E2).
  rewrite E, E2, (integral_unique _ _ _ _ _ I I2). f_equal. destruct (turn_of xi) as [z Ez]. rewrite Ez. replace (x - xi) with (x - (xi + 2 * PI * IZR z) + 2 * PI * IZR z) by ring. symmetry. apply as_kernel_turns.
Qed.
Lemma von_pdf_mod iv mu k x : von_pdf iv (pymod mu (2 * PI)) k x = von_pdf iv mu k x.
Proof. destruct (turn_of mu) as [z ->]. apply von_pdf_turns. Qed.

Lemma jp_rvs_law iv lpmv quad mu kappa psi : is_iv iv -> is_lpmv lpmv -> (forall m, quad_exact quad (fun x => jp_kernel kappa psi (x - m)) (- PI) PI) ->
  jp_ok mu kappa psi = true -> jp_ktol <= kappa -> jp_ptol <= Rabs psi -> Rabs (kappa * psi) <= 500 ->
  exists k m acc, 0 < k /\ 1 < m /\ (forall x, jp_pdf iv lpmv quad mu kappa psi x <= m * von_pdf iv mu k x) /\
    (forall p, acc p = true <-> snd p * (m * von_pdf iv mu k (fst p)) <= jp_pdf iv lpmv quad mu kappa psi (fst p)) /\
    (forall uniforms von batches total l, jp_rvs iv lpmv quad mu kappa psi uniforms von batches total = Some l ->
      length l = total /\ l = firstn total (map fst (filter acc (concat batches)))) /\
    (forall uniforms von b, forallb acc b = true -> jp_rvs iv lpmv quad mu kappa psi uniforms von [b] (length b) = Some (map fst b)).
Proof.
  intros H Hl HQ Hok Hk Hp HA. apply jp_ok_spec in Hok. destruct Hok as [Hm _]. destruct (jp_envelope iv lpmv quad (pymod mu (2 * PI)) kappa psi) as [K M] eqn:E.
  destruct (jp_dominates iv lpmv quad _ kappa psi K M H Hl (mod_range mu) Hk Hp HA (HQ _) E) as (K0 & M0 & D).
  exists K, M, (env_accept iv (jp_pdf iv lpmv quad (pymod mu (2 * PI)) kappa psi) (pymod mu (2 * PI)) K M). split; [exact K0|]. split; [exact M0|]. split; [|split; [|split]].
  - intros x. rewrite <- (jp_pdf_mod iv lpmv quad mu kappa psi x), <- (von_pdf_mod iv mu K x) by assumption. apply D.
  - intros p. rewrite env_accept_spec by (try exact H; lra). rewrite von_pdf_mod, jp_pdf_mod by assumption. reflexivity.
  - intros uniforms von batches total l. unfold jp_rvs. cbv zeta. rewrite (proj2 (Rltb_false _ _) Hk), (proj2 (Rltb_false _ _) Hp), E. apply env_loop_spec.
  - intros uniforms von b Hb. unfold jp_rvs. cbv zeta. rewrite (proj2 (Rltb_false _ _) Hk), (proj2 (Rltb_false _ _) Hp), E. apply env_loop_all, Hb.
Qed.
Lemma jp_rvs_flat iv lpmv quad mu kappa psi uniforms von batches total : 0 <= kappa < jp_ktol -> jp_rvs iv lpmv quad mu kappa psi uniforms von batches total = Some uniforms /\
  forall x, jp_pdf iv lpmv quad mu kappa psi x = 1 / (2 * PI).
Proof. intros H. split; [unfold jp_rvs; cbv zeta; rewrite (proj2 (Rltb_true _ _)) by lra; reflexivity|intros x; apply jp_pdf_flat, H]. Qed.
Lemma jp_rvs_von iv lpmv quad mu kappa psi uniforms von batches total : is_iv iv -> is_lpmv lpmv -> (forall m, quad_exact quad (fun x => jp_kernel kappa psi (x - m)) (- PI) PI) ->
  jp_ok mu kappa psi = true -> jp_ktol <= kappa -> Rabs psi < jp_ptol -> Rabs (kappa * psi) <= 500 ->
  jp_rvs iv lpmv quad mu kappa psi uniforms von batches total = Some (von (pymod mu (2 * PI)) kappa) /\ forall x, jp_pdf iv lpmv quad mu kappa psi x = von_pdf iv (pymod mu (2 * PI)) kappa x.
Proof.
  intros H Hl HQ Hok Hk Hp HA. apply jp_ok_spec in Hok. destruct Hok as [Hm _]. split.
  - unfold jp_rvs. cbv zeta. rewrite (proj2 (Rltb_false _ _) Hk), (proj2 (Rltb_true _ _) Hp). reflexivity.
  - intros x. rewrite von_pdf_mod, jp_pdf_kernel by exact Hk. destruct (jp_c_mass iv lpmv quad mu kappa psi H Hl Hm Hk HA (HQ mu)) as (Z & Z0 & I & ->).
    assert (V : integral (jp_kernel kappa psi) 0 (2 * PI) (2 * PI * iv 0%nat kappa)).
    { pose proof (i0_int iv kappa H) as J. revert J. unfold vE, jp_kernel. rewrite (proj2 (Rltb_true _ _) Hp). exact (fun J => J). }
    rewrite (integral_unique _ _ _ _ _ I V). unfold von_pdf, jp_kernel. rewrite (proj2 (Rltb_true _ _) Hp). unfold Rdiv. ring.
Qed.
Lemma as_rvs_law iv quad xi kappa psi nu : is_iv iv -> (forall m, quad_exact quad (fun x => as_kernel kappa psi nu (x - m)) (- PI) PI) ->
  as_ok xi kappa psi nu = true -> jp_ktol <= kappa -> (jp_ptol <= Rabs psi \/ / 10 ^ 12 <= nu) -> Rabs (kappa * psi) <= 500 ->
  exists k m acc, 0 < k /\ 1 < m /\
    (kappa * ((1 + nu) * cosh (kappa * psi) + 4 / 3) <= 21 / 2 -> forall x, as_pdf quad xi kappa psi nu x <= m * von_pdf iv xi k x) /\
    (forall p, acc p = true <-> snd p * (m * von_pdf iv xi k (fst p)) <= as_pdf quad xi kappa psi nu (fst p)) /\
    (forall uniforms von batches total l, as_rvs iv quad xi kappa psi nu uniforms von batches total = Ok (Some l) ->
      length l = total /\ l = firstn total (map fst (filter acc (concat batches)))) /\
    (forall uniforms von b, forallb acc b = true -> as_rvs iv quad xi kappa psi nu uniforms von [b] (length b) = Ok (Some (map fst b))).
Proof.
  intros H HQ Hok Hk Hp HA. apply as_ok_spec in Hok. destruct Hok as (Hm & _ & Hn). destruct (as_envelope iv quad (pymod xi (2 * PI)) kappa psi nu) as [K M] eqn:E.
  destruct (envelope_spec _ _ _ _ _ _ E) as (m0 & _ & E2 & _ & E4). assert (M0 : 1 < M) by (rewrite E4; pose proof (Rmax_r (exp (m0 + ln (1 + 2 / 100))) (101 / 100)); lra).
  assert (R : forall uniforms von batches total, as_rvs iv quad xi kappa psi nu uniforms von batches total = Ok (env_loop (env_accept iv (as_pdf quad (pymod xi (2 * PI)) kappa psi nu) (pymod xi (2 * PI)) K M) batches total)).
  { intros. unfold as_rvs. cbv zeta. rewrite (proj2 (Rleb_true _ _)), (proj2 (Rltb_true _ _)) by lra. simpl negb. rewrite (proj2 (Rltb_false _ _) Hk), E.
    destruct Hp as [Hp|Hp]; [rewrite (proj2 (Rltb_false _ _) Hp)|rewrite (proj2 (Rltb_false nu _) Hp), andb_false_r]; reflexivity. }
  exists K, M, (env_accept iv (as_pdf quad (pymod xi (2 * PI)) kappa psi nu) (pymod xi (2 * PI)) K M). split; [lra|]. split; [exact M0|]. split; [|split; [|split]].
  - intros HB x. rewrite <- (as_pdf_mod quad xi kappa psi nu x), <- (von_pdf_mod iv xi K x) by assumption. apply (as_dominates iv quad _ kappa psi nu K M H (mod_range xi) Hk (proj1 Hn) HA (HQ _) HB E).
  - intros p. rewrite env_accept_spec by (try exact H; lra). rewrite von_pdf_mod, as_pdf_mod by assumption. reflexivity.
  - intros uniforms von batches total l. rewrite R. intros L. injection L as L. apply env_loop_spec, L.
  - intros uniforms von b Hb. rewrite R. f_equal. apply env_loop_all, Hb.
Qed.
Lemma as_rvs_miss iv quad xi : is_iv iv -> 0 <= xi <= 2 * PI -> (forall m, quad_exact quad (fun x => as_kernel 14 (- 1) (/ 650) (x - m)) (- PI) PI) ->
  exists k m acc x, 0 < k /\ 1 < m /\ 4 * (m * von_pdf iv xi k x) < as_pdf quad xi 14 (- 1) (/ 650) x /\
    (forall p, acc p = true <-> snd p * (m * von_pdf iv xi k (fst p)) <= as_pdf quad xi 14 (- 1) (/ 650) (fst p)) /\
    (forall uniforms von batches total l, as_rvs iv quad xi 14 (- 1) (/ 650) uniforms von batches total = Ok (Some l) ->
      length l = total /\ l = firstn total (map fst (filter acc (concat batches)))).
Proof.
  intros H Hm HQ. destruct (as_envelope iv quad (pymod xi (2 * PI)) 14 (- 1) (/ 650)) as [K M] eqn:E.
  destruct (envelope_spec _ _ _ _ _ _ E) as (m0 & _ & E2 & _ & E4). assert (M0 : 1 < M) by (rewrite E4; pose proof (Rmax_r (exp (m0 + ln (1 + 2 / 100))) (101 / 100)); lra).
  assert (Hk : jp_ktol <= 14) by (unfold jp_ktol; lra). destruct (as_missed iv quad _ K M H (mod_range xi) (HQ _) E) as [x Hx].
  exists K, M, (env_accept iv (as_pdf quad (pymod xi (2 * PI)) 14 (- 1) (/ 650)) (pymod xi (2 * PI)) K M), x. split; [lra|]. split; [exact M0|]. split; [|split].
  - rewrite <- (as_pdf_mod quad xi 14 (- 1) (/ 650) x), <- (von_pdf_mod iv xi K x) by assumption. exact Hx.
  - intros p. rewrite env_accept_spec by (try exact H; lra). rewrite von_pdf_mod, as_pdf_mod by assumption. reflexivity.
  - intros uniforms von batches total l. unfold as_rvs. cbv zeta. rewrite (proj2 (Rleb_true _ _)), (proj2 (Rltb_true _ _)) by lra. simpl negb. rewrite (proj2 (Rltb_false _ _) Hk), E, (proj2 (Rltb_false (Rabs (- 1)) _)) by (rewrite Rabs_left; unfold jp_ptol; lra).
    simpl andb. intros L. injection L as L. apply env_loop_spec, L.
Qed.
Lemma as_rvs_bad iv quad xi kappa psi nu uniforms von batches total : ~ (0 <= nu < 1) -> as_rvs iv quad xi kappa psi nu uniforms von batches total = Err ValueError.
Proof.
  intros H. unfold as_rvs. cbv zeta. destruct (Rleb 0 nu && Rltb nu 1) eqn:E; [|reflexivity]. apply andb_true_iff in E. rewrite Rleb_true, Rltb_true in E. tauto.
Qed.
