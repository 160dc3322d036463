(** The density of the inverse Batschelet distribution on an object without history. *)
From Verif Require Import Prelude NpModel NpProofs CircleSpec IntSpec IntProofs DistModel DistSpec DistProofs Dist2Proofs Dist4Proofs Dist5Proofs
  Dist6Proofs Dist7Proofs KjProofs Kj2Proofs VonModel VonSpec VonProofs Von3Proofs Von4Proofs JpProofs Jp3Proofs Wn3Proofs Wn6Proofs Ws3Proofs GaussProofs Von6Proofs Jp5Proofs
  FtModel FtSpec FtProofs Ft2Proofs Ft3Proofs Ft4Proofs Ft5Proofs Ft8Proofs IbModel IbProofs Ib2Proofs Ib3Proofs.

Lemma ib_J_one iv kappa J : is_iv iv -> 0 <= kappa -> integral (fun u => ft_shape kappa (- (1 / 2 * (1 - 1))) u * (1 - 1 / 2 * (1 + 1) * cos u)) (- PI) PI J ->
  J = 2 * PI * (iv 0%nat kappa - iv 1%nat kappa).
Proof.
  intros Hiv Hk HJ. pose proof PI_gt3.
  assert (C : forall x, continuity_pt (fun u => exp (kappa * cos u) * (1 - cos u)) x) by (intros x; apply derivable_continuous_pt; reg).
  assert (P : forall x (z : Z), exp (kappa * cos (x + 2 * PI * IZR z)) * (1 - cos (x + 2 * PI * IZR z)) = exp (kappa * cos x) * (1 - cos x)) by (intros x z; rewrite NpProofs.cos_turns; reflexivity).
  assert (J1 : integral (fun u => exp (kappa * cos u) * (1 - cos u)) (- PI) PI J).
  { refine (integral_ext _ _ _ _ _ _ _ HJ); [lra|]. intros u _. unfold ft_shape, ft_log. replace (u + - (1 / 2 * (1 - 1)) * sin u) with u by field. f_equal. field. }
  apply (turn_integral _ _ C P) in J1. apply (integral_unique _ _ _ _ _ J1).
  assert (L : integral (fun t => vE kappa t + (-1) * (cos t * vE kappa t)) 0 (2 * PI) (2 * PI * iv 0%nat kappa + (-1) * (2 * PI * iv 1%nat kappa))) by (apply integral_lin; [apply i0_int|apply i1_int]; exact Hiv).
  eapply integral_val; [|refine (integral_ext _ _ _ _ _ _ _ L); [lra|]].
  - ring.
  - intros u _. unfold vE. ring.
Qed.

(** The two integrals. *)
Lemma ib_I_ex kappa lam : exists I, integral (ft_shape kappa (- (1 / 2 * (1 - lam)))) (- PI) PI I /\ 0 < I.
Proof. apply ft_shape_I. Qed.
Lemma ib_J_ex kappa lam : exists J, integral (fun u => ft_shape kappa (- (1 / 2 * (1 - lam))) u * (1 - 1 / 2 * (1 + lam) * cos u)) (- PI) PI J.
Proof.
  pose proof PI_gt3. apply continuous_integral; [lra|]. intros x _. apply cont_mult; [apply ft_shape_cont|apply derivable_continuous_pt; reg].
Qed.
(** Parameters for which the normalising constant is known to be accurate. *)
Definition lam_good (kappa lam : R) : Prop := lam = 1 \/ ((lam = -1 \/ lam_mid lam) /\ ib_q kappa lam <= 1 / 2).
Lemma usable_fin v : 0 < v -> usable (Fin v) = true. Proof. intros H. unfold usable. apply Rltb_true, H. Qed.
Lemma ib_c_good iv kappa lam J : is_iv iv -> ib_ktol < kappa <= ib_kmax -> lam_good kappa lam ->
  integral (fun u => ft_shape kappa (- (1 / 2 * (1 - lam))) u * (1 - 1 / 2 * (1 + lam) * cos u)) (- PI) PI J ->
  exists c, ib_c iv kappa lam = Fin c /\ 0 < c /\ 0 < J /\ (lam = 0 \/ lam = 1 -> c * J = 1) /\ (lam < 1 -> Rabs (/ (c * J) - 1) <= ib_q kappa lam + 5 / 10 ^ 12).
Proof.
  intros Hiv Hk Hg HJ. pose proof PI_gt3. assert (k0 : 0 <= kappa) by (unfold ib_ktol in Hk; destruct Hk; assert (0 < / 10 ^ 9) by (apply Rinv_0_lt_compat; lra); lra).
  assert (Ek : clip kappa 0 ib_kmax = kappa) by (apply clip_in; lra). unfold ib_c. rewrite Ek. cbv zeta. rewrite (proj2 (Rleb_false kappa ib_ktol)) by lra.
  destruct end_close as (M1 & M2 & M3 & M4 & M5 & M6).
  assert (Hl : -1 <= lam <= 1) by (destruct Hg as [->|[[->|[A B]] _]]; lra). destruct (ib_I_ex kappa lam) as (I & HI & I0).
  destruct (ib_J iv kappa lam I J Hiv k0 Hl HI HJ) as (EJ & BJ & PJ).
  destruct Hg as [->|[[->|Hm] Hq]].
  - rewrite M4. pose proof (ib_J_one iv kappa J Hiv k0 HJ) as E1. pose proof (i0_ge1 iv kappa Hiv) as G.
    assert (0 < iv 0%nat kappa - iv 1%nat kappa) by (apply Rmult_lt_reg_l with (2 * PI); lra).
    assert (K : 1 - iv 1%nat kappa / iv 0%nat kappa = (iv 0%nat kappa - iv 1%nat kappa) / iv 0%nat kappa) by (field; lra). rewrite K.
    assert (KP : 0 < (iv 0%nat kappa - iv 1%nat kappa) / iv 0%nat kappa) by (apply Rdiv_lt_0_compat; lra). rewrite (proj2 (Rleb_false _ 0)) by exact KP.
    exists (1 / J). assert (0 < 1 / J) by (apply Rdiv_lt_0_compat; lra). split; [|split; [assumption|split; [exact PJ|split; [intros _; field; lra|lra]]]].
    f_equal. unfold Rminus at 1. rewrite exp_plus, !exp_Ropp, ib_mult_val, exp_ln, E1 by assumption. field. lra.
  - rewrite M3. unfold ib_c_numeric. rewrite M1. rewrite usable_fin by apply exp_pos. exists (/ ib_T kappa (-1)). pose proof (ib_T_pos kappa (-1)) as TP.
    split; [rewrite exp_Ropp, ib_int_T; reflexivity|split; [apply Rinv_0_lt_compat, TP|split; [exact PJ|split; [lra|intros _]]]].
    assert (E : J = I) by lra. pose proof (ib_T_near kappa (-1) I k0 ltac:(lra) HI) as TN. replace (/ (/ ib_T kappa (-1) * J) - 1) with ((ib_T kappa (-1) - I) / I) by (rewrite E; field; lra).
    unfold Rdiv. rewrite Rabs_mult, (Rabs_pos_eq (/ I)) by (left; apply Rinv_0_lt_compat, I0).
    assert (X : Rabs (ib_T kappa (-1) - I) * / I <= ib_q kappa (-1)); [|lra]. apply Rmult_le_reg_r with I; [exact I0|]. rewrite Rmult_assoc, Rinv_l, Rmult_1_r by lra.
    replace (ib_q kappa (-1)) with (PI * (kappa * (1 + 1 / 2 * (1 - -1))) / 4096); [exact TN|]. unfold ib_q. rewrite (Rabs_left (-1)) by lra. field.
  - destruct (mid_close lam Hm) as (C1 & C2 & C3). rewrite C2. destruct (ib_c_mid iv kappa lam I J Hiv k0 Hm Hq HI HJ) as (DP & D0 & DN).
    rewrite (ib_c_num_val iv kappa lam Hiv Hm DP). assert (0 < 1 - lam) by (destruct Hm; lra). assert (CP : 0 < (1 - lam) / ib_D iv kappa lam) by (apply Rdiv_lt_0_compat; assumption).
    rewrite usable_fin by exact CP. eexists. split; [reflexivity|]. split; [exact CP|]. split; [exact PJ|]. split.
    + intros [E|E]; [|lra]. rewrite (D0 E). field. split; lra.
    + intros _. replace (/ ((1 - lam) / ib_D iv kappa lam * J) - 1) with (ib_D iv kappa lam / ((1 - lam) * J) - 1) by (field; repeat split; lra). exact DN.
Qed.

(** The answers of a fresh object, and of any object whose cache holds the right constant. *)
Definition norm_right iv (st : ib_state) : Prop := forall k lam c, dict_get [k; lam] (norms st) = Some c -> c = ib_c iv k lam.
Lemma fresh_right iv : norm_right iv ib_fresh. Proof. intros k lam c H. discriminate H. Qed.
Lemma get_cached_val iv k lam st : norm_right iv st -> fst (get_cached (fun _ => ib_c iv k lam) [[k]; [lam]] (norms st)) = ib_c iv k lam.
Proof.
  intros H. unfold get_cached. cbn [cache_key]. destruct (dict_get [k; lam] (norms st)) as [v|] eqn:E; cbn; [|reflexivity]. apply (H _ _ _ E).
Qed.
Lemma ib_pdf_val iv root st xi kappa nu lam c : is_root root -> norm_right iv st -> ib_ok xi kappa nu lam = true -> ib_ktol < kappa <= ib_kmax -> lam = 1 \/ lam = -1 \/ lam_mid lam ->
  ib_c iv kappa lam = Fin c -> 0 < c -> forall x, fst (ib_public_pdf iv root xi kappa nu lam x st) = Fin (c * ib_G root kappa nu lam (x - xi)).
Proof.
  intros Hr Hst Hok Hk Hl Hc Pc x. unfold ib_public_pdf. rewrite Hok. apply ib_ok_spec in Hok as (O1 & O2 & O3 & O4).
  unfold ib_pdf. rewrite (clip_in kappa 0 ib_kmax) by lra. cbv zeta. rewrite (proj2 (Rleb_false kappa ib_ktol)) by lra.
  unfold ib_norm. pose proof (get_cached_val iv kappa lam st Hst) as GV. destruct (get_cached _ _ _) as [v d]. cbn [fst] in GV. rewrite GV, Hc, usable_fin by exact Pc. cbn [fst].
  f_equal. destruct (wrap_same x) as [z Ez].
  assert (A : forall close, close = isclose lam (- 1) -> exp (ib_log root close kappa lam (ib_tnu root nu xi (wrap_angles x))) = ib_G root kappa nu lam (x - xi)).
  { intros close Ecl. destruct end_close as (M1 & M2 & M3 & M4 & M5 & M6). rewrite (ib_G_eq root close kappa nu lam xi (wrap_angles x) Hr O3 O4).
    - rewrite Ez. replace (x + 2 * PI * IZR z - xi) with (x - xi + 2 * PI * IZR z) by ring. apply ib_G_turns; assumption.
    - intros T. rewrite Ecl in T. destruct Hl as [->|[->|Hm]]; [congruence|lra|]. destruct (mid_close lam Hm) as (_ & _ & X). congruence.
    - intros T. rewrite Ecl in T. destruct Hl as [->|[->|Hm]]; [exact M5|congruence|apply (mid_close lam Hm)]. }
  rewrite (A _ eq_refl). apply Rmax_left. apply Rmult_le_pos; [lra|]. left. unfold ib_G, ib_kernel, ft_shape. apply exp_pos.
Qed.
Lemma ib_G_pos root kappa nu lam x : 0 < ib_G root kappa nu lam x. Proof. unfold ib_G, ib_kernel, ft_shape. apply exp_pos. Qed.
Lemma ib_G_at root kappa nu lam u : is_root root -> -1 <= nu <= 1 -> (nu = 0 \/ ib_tol < Rabs nu) -> -1 <= lam <= 1 ->
  let t := u - 1 / 2 * (1 + lam) * sin u in ib_G root kappa nu lam (t - nu * (1 + cos t)) = exp (kappa * cos (u - 1 / 2 * (1 - lam) * sin u)).
Proof.
  intros Hr Hn Hn' Hl t. assert (E : nu_eff nu = nu). { unfold nu_eff. destruct (Rleb_spec (Rabs nu) ib_tol) as [X|X]; [destruct Hn' as [|]; lra|reflexivity]. }
  unfold ib_G. rewrite E. assert (E1 : ginv root (warp_nu nu) (t - nu * (1 + cos t)) = t) by (apply ginv_unique; [exact Hr|apply warp_nu_ok, Hn|reflexivity]). rewrite E1.
  unfold ib_kernel. assert (E2 : ginv root (warp_sin (1 / 2 * (1 + lam))) t = u) by (apply ginv_unique; [exact Hr|apply warp_sin_ok; lra|reflexivity]). rewrite E2.
  unfold ft_shape, ft_log. f_equal. f_equal. f_equal. ring.
Qed.
(** Every angle is reached, once per turn. *)
Lemma ib_onto root nu lam phi : is_root root -> -1 <= nu <= 1 -> -1 <= lam <= 1 -> exists u, let t := u - 1 / 2 * (1 + lam) * sin u in phi = t - nu * (1 + cos t).
Proof.
  intros Hr Hn Hl. exists (ginv root (warp_sin (1 / 2 * (1 + lam))) (ginv root (warp_nu nu) phi)). cbv zeta.
  pose proof (ginv_spec root (warp_sin (1 / 2 * (1 + lam))) (ginv root (warp_nu nu) phi) Hr ltac:(apply warp_sin_ok; lra)) as E1. unfold warp_sin in E1 at 1. rewrite E1.
  pose proof (ginv_spec root (warp_nu nu) phi Hr ltac:(apply warp_nu_ok, Hn)) as E2. unfold warp_nu in E2 at 1. symmetry. exact E2.
Qed.
(** The density of a fresh object. *)
Lemma ib_density iv root st xi kappa nu lam : is_iv iv -> is_root root -> norm_right iv st -> ib_ok xi kappa nu lam = true -> ib_ktol < kappa <= ib_kmax -> lam_good kappa lam ->
  exists c M, 0 < c /\ (forall x, fst (ib_public_pdf iv root xi kappa nu lam x st) = Fin (c * ib_G root kappa nu lam (x - xi))) /\
    integral (fun x => c * ib_G root kappa nu lam (x - xi)) 0 (2 * PI) M /\ 0 < M /\ (lam = 0 \/ lam = 1 -> M = 1) /\ (lam < 1 -> Rabs (/ M - 1) <= ib_q kappa lam + 5 / 10 ^ 12).
Proof.
  intros Hiv Hr Hst Hok Hk Hg. pose proof PI_gt3. destruct (ib_J_ex kappa lam) as [J HJ]. destruct (ib_c_good iv kappa lam J Hiv Hk Hg HJ) as (c & Ec & c0 & J0 & C0 & C1).
  pose proof Hok as Hok'. apply ib_ok_spec in Hok' as (O1 & O2 & O3 & O4).
  exists c, (c * J). split; [exact c0|]. split; [intros x; apply ib_pdf_val; try assumption; destruct Hg as [|[[|] _]]; tauto|].
  split; [|split; [apply Rmult_lt_0_compat; assumption|split; assumption]]. apply integral_scal; [lra|].
  assert (Cg : forall x, continuity_pt (ib_G root kappa nu lam) x) by (intros x; apply ib_G_cont; assumption).
  assert (Pg : forall x (z : Z), ib_G root kappa nu lam (x + 2 * PI * IZR z) = ib_G root kappa nu lam x) by (intros x z; apply ib_G_turns; assumption).
  destruct (continuous_integral (ib_G root kappa nu lam) (- PI) PI ltac:(lra) ltac:(intros; apply Cg)) as [v Hv]. rewrite (ib_mass root kappa nu lam v J Hr O3 O4 Hv HJ) in Hv.
  apply (turn_integral _ _ Cg Pg) in Hv. pose proof (int_turn _ (- xi) J Cg Pg Hv) as T.
  apply int_shift_to; [lra|exact Cg|]. replace (0 - xi) with (- xi) by ring. replace (2 * PI - xi) with (- xi + 2 * PI) by ring. exact T.
Qed.
