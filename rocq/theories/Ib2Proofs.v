(** The density of the inverse Batschelet distribution and its integral. *)
From Verif Require Import Prelude NpModel NpProofs CircleSpec IntSpec IntProofs DistModel DistSpec DistProofs Dist2Proofs Dist4Proofs Dist5Proofs
  Dist6Proofs Dist7Proofs KjProofs Kj2Proofs VonModel VonSpec Von3Proofs Von4Proofs JpProofs Jp3Proofs Wn3Proofs Wn6Proofs Ws3Proofs GaussProofs Von6Proofs Jp5Proofs
  FtModel FtSpec FtProofs Ft2Proofs Ft3Proofs Ft4Proofs Ft5Proofs Ft8Proofs IbModel IbProofs.

Definition nu_eff (nu : R) : R := if Rleb (Rabs nu) ib_tol then 0 else nu.
Lemma nu_eff_range nu : -1 <= nu <= 1 -> -1 <= nu_eff nu <= 1.
Proof. intros H. unfold nu_eff. destruct (Rleb _ _); lra. Qed.
Lemma ib_tnu_eq root nu xi x : is_root root -> -1 <= nu <= 1 -> ib_tnu root nu xi x = ginv root (warp_nu (nu_eff nu)) (centre (x - xi)).
Proof.
  intros Hr Hn. unfold ib_tnu, nu_eff. cbv zeta. fold (centre (x - xi)). destruct (Rleb (Rabs nu) ib_tol).
  - symmetry. apply ginv_unique; [exact Hr|apply warp_nu_ok; lra|]. apply warp_0_nu.
  - rewrite <- ginv_in; [reflexivity|exact Hr|apply warp_nu_ok, Hn|apply centre_range].
Qed.
(** The kernel at the warped angle y. *)
Definition ib_kernel root (kappa lam y : R) : R := ft_shape kappa (- (1 / 2 * (1 - lam))) (ginv root (warp_sin (1 / 2 * (1 + lam))) y).
Lemma lam_half lam : -1 <= lam <= 1 -> 0 <= 1 / 2 * (1 + lam) <= 1 /\ 0 <= 1 / 2 * (1 - lam) <= 1. Proof. lra. Qed.
Lemma not_close12 lam : isclose12 lam (- 1) = false -> lam <> -1.
Proof.
  intros H E. rewrite E in H. unfold isclose12, isclose_tol in H. apply Rleb_false in H. rewrite Rminus_eq_0, Rabs_R0, (Rabs_left (- 1)) in H by lra. lra.
Qed.
Lemma ib_log_eq root close kappa lam y : is_root root -> -1 <= lam <= 1 -> (close = true -> lam = -1) -> (close = false -> isclose12 lam (- 1) = false) -> - PI <= y < PI ->
  exp (ib_log root close kappa lam y) = ib_kernel root kappa lam y.
Proof.
  intros Hr Hl C1 C2 Hy. unfold ib_log, ib_kernel, ft_shape, ft_log. destruct (lam_half lam Hl) as [A1 A2]. destruct close.
  - rewrite (C1 eq_refl) in *. f_equal. f_equal. f_equal. replace (ginv root (warp_sin (1 / 2 * (1 + -1))) y) with y; [field|].
    symmetry. apply ginv_unique; [exact Hr|apply warp_sin_ok; lra|]. unfold warp_sin. field.
  - pose proof (C2 eq_refl) as E12. pose proof (not_close12 lam E12) as NE. cbv zeta. unfold ib_sinv. rewrite E12.
    change (centre (root (fun u => u - 1 / 2 * (1 + lam) * sin u - y) (- PI) PI)) with (winv root (warp_sin (1 / 2 * (1 + lam))) y).
    rewrite ginv_in by (try assumption; apply warp_sin_ok, A1). set (u := ginv root (warp_sin (1 / 2 * (1 + lam))) y).
    pose proof (ginv_spec root (warp_sin (1 / 2 * (1 + lam))) y Hr (warp_sin_ok _ A1)) as E. fold u in E. f_equal. f_equal. f_equal. rewrite <- E. unfold warp_sin. field. lra.
Qed.
Lemma ib_kernel_turns root kappa lam y (z : Z) : is_root root -> -1 <= lam <= 1 -> ib_kernel root kappa lam (y + 2 * PI * IZR z) = ib_kernel root kappa lam y.
Proof. intros Hr Hl. unfold ib_kernel. rewrite ginv_turns, ft_shape_turns; [reflexivity|exact Hr|apply warp_sin_ok; lra]. Qed.
Lemma ib_kernel_cont root kappa lam y : is_root root -> -1 <= lam <= 1 -> continuity_pt (ib_kernel root kappa lam) y.
Proof. intros Hr Hl. unfold ib_kernel. apply (cont_comp (ft_shape kappa (- (1 / 2 * (1 - lam)))) (ginv root (warp_sin (1 / 2 * (1 + lam))))); [apply ginv_cont; [exact Hr|apply warp_sin_ok; lra]|apply ft_shape_cont]. Qed.
Lemma ib_kernel_even root kappa lam y : is_root root -> -1 <= lam <= 1 -> ib_kernel root kappa lam (- y) = ib_kernel root kappa lam y.
Proof. intros Hr Hl. unfold ib_kernel. rewrite ginv_odd by (try assumption; lra). unfold ft_shape. rewrite ft_log_even. reflexivity. Qed.
(** The kernel as a function of the distance from the centre. *)
Definition ib_G root (kappa nu lam phi : R) : R := ib_kernel root kappa lam (ginv root (warp_nu (nu_eff nu)) phi).
Lemma ib_G_turns root kappa nu lam x (z : Z) : is_root root -> -1 <= nu <= 1 -> -1 <= lam <= 1 -> ib_G root kappa nu lam (x + 2 * PI * IZR z) = ib_G root kappa nu lam x.
Proof. intros Hr Hn Hl. unfold ib_G. rewrite ginv_turns, ib_kernel_turns; [reflexivity|assumption..|apply warp_nu_ok, nu_eff_range, Hn]. Qed.
Lemma ib_G_cont root kappa nu lam x : is_root root -> -1 <= nu <= 1 -> -1 <= lam <= 1 -> continuity_pt (ib_G root kappa nu lam) x.
Proof.
  intros Hr Hn Hl. unfold ib_G. apply (cont_comp (ib_kernel root kappa lam) (ginv root (warp_nu (nu_eff nu)))); [apply ginv_cont; [exact Hr|apply warp_nu_ok, nu_eff_range, Hn]|apply ib_kernel_cont; assumption].
Qed.
Lemma ib_G_eq root close kappa nu lam xi x : is_root root -> -1 <= nu <= 1 -> -1 <= lam <= 1 -> (close = true -> lam = -1) -> (close = false -> isclose12 lam (- 1) = false) ->
  exp (ib_log root close kappa lam (ib_tnu root nu xi x)) = ib_G root kappa nu lam (x - xi).
Proof.
  intros Hr Hn Hl C1 C2. rewrite ib_tnu_eq by assumption. pose proof (warp_nu_ok (nu_eff nu) (nu_eff_range nu Hn)) as Hw. pose proof (centre_range (x - xi)) as Rg.
  change (pymod (x - xi + PI) (2 * PI) - PI) with (centre (x - xi)) in Rg. rewrite ib_log_eq; try assumption.
  - destruct (centre_turns (x - xi)) as [z Ez]. change (pymod (x - xi + PI) (2 * PI) - PI) with (centre (x - xi)) in Ez. rewrite Ez. fold (ib_G root kappa nu lam (x - xi + 2 * PI * IZR z)). apply ib_G_turns; assumption.
  - rewrite <- ginv_in by assumption. apply winv_spec; assumption.
Qed.
(** ** The integral *)
Lemma warp_nu_d nu x : derivable_pt_lim (warp_nu nu) x (1 + nu * sin x).
Proof.
  unfold warp_nu. apply (dlim_eq _ _ (1 - nu * (0 + - sin x * 1))); [ring|]. apply (dlim_minus (fun y => y) (fun y => nu * (1 + cos y))); [apply dlim_id|].
  apply (dlim_scal nu (fun y => 1 + cos y)). apply (dlim_plus (fun _ => 1) (fun y => cos y)); [apply dlim_const|apply (dlim_cos (fun y => y)), dlim_id].
Qed.
Lemma warp_sin_d a x : derivable_pt_lim (warp_sin a) x (1 - a * cos x).
Proof.
  unfold warp_sin. apply (dlim_eq _ _ (1 - a * (cos x * 1))); [ring|]. apply (dlim_minus (fun y => y) (fun y => a * sin y)); [apply dlim_id|].
  apply (dlim_scal a (fun y => sin y)), (dlim_sin (fun y => y)), dlim_id.
Qed.
Lemma warp_between W x : warp W -> - PI <= x <= PI -> W (- PI) <= W x <= W PI.
Proof.
  intros Hw Hx. split.
  - destruct (Req_dec (- PI) x) as [->|]; [lra|]. left. apply (wp_inc W Hw). lra.
  - destruct (Req_dec x PI) as [->|]; [lra|]. left. apply (wp_inc W Hw). lra.
Qed.
Lemma turn_integral f v : (forall x, continuity_pt f x) -> (forall x (z : Z), f (x + 2 * PI * IZR z) = f x) -> integral f (- PI) PI v <-> integral f 0 (2 * PI) v.
Proof.
  intros C P. pose proof PI_gt3. assert (A : forall w, integral f 0 (2 * PI) w -> integral f (- PI) PI w).
  { intros w W. pose proof (int_turn f (- PI) w C P W) as T. replace (- PI + 2 * PI) with PI in T by ring. exact T. }
  split; [|apply A]. intros I. destruct (continuous_integral f 0 (2 * PI)) as [w W]; [lra|intros; apply C|]. rewrite (integral_unique _ _ _ _ _ I (A w W)). exact W.
Qed.
Lemma ib_mass root kappa nu lam v w : is_root root -> -1 <= nu <= 1 -> -1 <= lam <= 1 ->
  integral (ib_G root kappa nu lam) (- PI) PI v ->
  integral (fun u => ft_shape kappa (- (1 / 2 * (1 - lam))) u * (1 - 1 / 2 * (1 + lam) * cos u)) (- PI) PI w -> v = w.
Proof.
  intros Hr Hn Hl I J. pose proof PI_gt3. pose proof (warp_nu_ok (nu_eff nu) (nu_eff_range nu Hn)) as Hw. destruct (lam_half lam Hl) as [A1 _]. pose proof (warp_sin_ok _ A1) as Hs.
  set (n := nu_eff nu) in *.
  (* first substitution *)
  assert (I1 : integral (fun y => ib_kernel root kappa lam y * (1 + n * sin y)) (- PI) PI v).
  { apply (integral_ext (fun y => ib_G root kappa nu lam (warp_nu n y) * (1 + n * sin y))); [lra| |].
    - intros y _. f_equal. unfold ib_G. fold n. f_equal. apply ginv_unique; [exact Hr|exact Hw|reflexivity].
    - apply (substitution (ib_G root kappa nu lam) (warp_nu n) (fun y => 1 + n * sin y)); [lra|rewrite (wp_pi _ Hw), (warp_hi _ Hw); lra|intros; apply ib_G_cont; assumption|intros; apply warp_nu_d| |intros; apply warp_between; assumption|].
      + intros x. apply derivable_continuous_pt. reg.
      + rewrite (wp_pi _ Hw), (warp_hi _ Hw). exact I. }
  destruct (continuous_integral (ib_kernel root kappa lam) (- PI) PI) as [v0 I0]; [lra|intros; apply ib_kernel_cont; assumption|].
  assert (Co : forall x, continuity_pt (fun y => ib_kernel root kappa lam y * sin y) x).
  { intros x. apply cont_mult; [apply ib_kernel_cont; assumption|apply derivable_continuous_pt; reg]. }
  assert (Po : forall x (z : Z), ib_kernel root kappa lam (x + 2 * PI * IZR z) * sin (x + 2 * PI * IZR z) = ib_kernel root kappa lam x * sin x).
  { intros x z. rewrite ib_kernel_turns, NpProofs.sin_turns by assumption. reflexivity. }
  destruct (continuous_integral (fun y => ib_kernel root kappa lam y * sin y) (- PI) PI) as [o O]; [lra|intros; apply Co|].
  assert (o = 0) as ->.
  { apply (odd_integral (fun y => ib_kernel root kappa lam y * sin y) o Co); [|apply (proj1 (turn_integral _ _ Co Po)), O].
    intros x. replace (2 * PI - x) with (- x + 2 * PI * IZR 1) by (cbn; ring). rewrite (Po (- x) 1%Z), ib_kernel_even, sin_neg by assumption. ring. }
  assert (v = v0) as ->.
  { apply (integral_unique _ _ _ _ _ I1). apply (integral_ext (fun y => ib_kernel root kappa lam y + n * (ib_kernel root kappa lam y * sin y))); [lra|intros; ring|].
    apply (integral_val _ _ _ (v0 + n * 0)); [ring|]. apply (integral_plus (ib_kernel root kappa lam) (fun y => n * (ib_kernel root kappa lam y * sin y))); [lra|exact I0|].
    apply (integral_scal (fun y => ib_kernel root kappa lam y * sin y)); [lra|exact O]. }
  (* second substitution *)
  apply (integral_unique (fun u => ft_shape kappa (- (1 / 2 * (1 - lam))) u * (1 - 1 / 2 * (1 + lam) * cos u)) (- PI) PI); [|exact J].
  apply (integral_ext (fun u => ib_kernel root kappa lam (warp_sin (1 / 2 * (1 + lam)) u) * (1 - 1 / 2 * (1 + lam) * cos u))); [lra| |].
  - intros u _. f_equal. unfold ib_kernel. f_equal. apply ginv_unique; [exact Hr|exact Hs|reflexivity].
  - apply (substitution (ib_kernel root kappa lam) (warp_sin (1 / 2 * (1 + lam))) (fun u => 1 - 1 / 2 * (1 + lam) * cos u)); [lra|rewrite (wp_pi _ Hs), (warp_hi _ Hs); lra|intros; apply ib_kernel_cont; assumption|intros; apply warp_sin_d| |intros; apply warp_between; assumption|].
    + intros x. apply derivable_continuous_pt. reg.
    + rewrite (wp_pi _ Hs), (warp_hi _ Hs). exact I0.
Qed.
(** (1 - lambda) J = (1 + lambda) 2 pi I0 - 2 lambda I. *)
Lemma ib_J iv kappa lam I J : is_iv iv -> 0 <= kappa -> -1 <= lam <= 1 -> integral (ft_shape kappa (- (1 / 2 * (1 - lam)))) (- PI) PI I ->
  integral (fun u => ft_shape kappa (- (1 / 2 * (1 - lam))) u * (1 - 1 / 2 * (1 + lam) * cos u)) (- PI) PI J ->
  (1 - lam) * J = (1 + lam) * (2 * PI * iv 0%nat kappa) - 2 * lam * I /\ 1 / 2 * (1 - lam) * I <= J /\ 0 < J.
Proof.
  intros Hiv Hk Hl HI HJ. pose proof PI_gt3. destruct (lam_half lam Hl) as [A1 A2]. set (a := 1 / 2 * (1 - lam)) in *. set (E := ft_shape kappa (- a)) in *.
  assert (CE : forall x, continuity_pt E x) by apply ft_shape_cont. assert (PE : forall x, 0 < E x) by (intros; apply exp_pos).
  assert (CEc : forall x, continuity_pt (fun u => E u * cos u) x) by (intros x; apply cont_mult; [apply CE|apply derivable_continuous_pt; reg]).
  destruct (continuous_integral (fun u => E u * cos u) (- PI) PI) as [C HC]; [lra|intros; apply CEc|].
  assert (LIN : forall b, integral (fun u => E u * (1 - b * cos u)) (- PI) PI (I - b * C)).
  { intros b. apply (integral_ext (fun u => E u + - b * (E u * cos u))); [lra|intros; ring|]. apply (integral_val _ _ _ (I + - b * C)); [ring|].
    apply (integral_plus E (fun u => - b * (E u * cos u))); [lra|exact HI|]. apply (integral_scal (fun u => E u * cos u)); [lra|exact HC]. }
  pose proof (integral_unique _ _ _ _ _ HJ (LIN (1 / 2 * (1 + lam)))) as EJ.
  assert (E0 : 2 * PI * iv 0%nat kappa = I - a * C).
  { assert (Cv : forall x, continuity_pt (fun t => exp (kappa * cos t)) x) by (intros x; apply (cont_comp exp (fun t => kappa * cos t)); [apply derivable_continuous_pt; reg|apply exp_cont]).
    assert (Pv : forall x (z : Z), exp (kappa * cos (x + 2 * PI * IZR z)) = exp (kappa * cos x)) by (intros; rewrite NpProofs.cos_turns; reflexivity).
    assert (V : integral (fun t => exp (kappa * cos t)) (- PI) PI (2 * PI * iv 0%nat kappa)).
    { apply (turn_integral _ _ Cv Pv). apply (integral_ext (fun t => cos (INR 0 * t) * exp (kappa * cos t))); [lra|intros; cbn [INR]; rewrite Rmult_0_l, cos_0; ring|]. apply (Hiv 0%nat kappa). }
    pose proof (warp_sin_ok a A2) as Hs.
    apply (integral_unique (fun u => E u * (1 - a * cos u)) (- PI) PI); [|apply LIN].
    apply (integral_ext (fun u => exp (kappa * cos (warp_sin a u)) * (1 - a * cos u))); [lra| |].
    - intros u _. f_equal. unfold E, ft_shape, ft_log, warp_sin. f_equal. f_equal. f_equal. ring.
    - apply (substitution (fun t => exp (kappa * cos t)) (warp_sin a) (fun u => 1 - a * cos u)); [lra|rewrite (wp_pi _ Hs), (warp_hi _ Hs); lra|exact Cv|intros; apply warp_sin_d| |intros; apply warp_between; assumption|].
      + intros x. apply derivable_continuous_pt. reg.
      + rewrite (wp_pi _ Hs), (warp_hi _ Hs). exact V. }
  split; [|split].
  - rewrite EJ, E0. unfold a. field.
  - pose proof (integral_scal E (- PI) PI (1 / 2 * (1 - lam)) I ltac:(lra) HI) as SI. refine (integral_le _ _ (- PI) PI _ _ ltac:(lra) _ SI HJ).
    intros u _. pose proof (PE u). pose proof (COS_bound u). assert (1 / 2 * (1 - lam) <= 1 - 1 / 2 * (1 + lam) * cos u) by nra. nra.
  - set (g := fun u => E u * (1 - 1 / 2 * (1 + lam) * cos u)) in *.
    assert (Cg : forall x, continuity_pt g x) by (intros x; apply cont_mult; [apply CE|apply derivable_continuous_pt; reg]).
    destruct (continuous_integral g (- PI) (PI / 2)) as [g1 G1]; [lra|intros; apply Cg|]. destruct (continuous_integral g (PI / 2) PI) as [g2 G2]; [lra|intros; apply Cg|].
    rewrite (integral_unique _ _ _ _ _ HJ (integral_split _ _ _ _ _ _ G1 G2)).
    assert (0 * (PI / 2 - - PI) <= g1).
    { refine (integral_le _ _ (- PI) (PI / 2) _ _ ltac:(lra) _ (integral_const _ _ 0) G1). intros u _. pose proof (COS_bound u). apply Rmult_le_pos; [left; apply PE|nra]. }
    assert (exp (- kappa) * (PI - PI / 2) <= g2).
    { refine (integral_le _ _ (PI / 2) PI _ _ ltac:(lra) _ (integral_const _ _ (exp (- kappa))) G2). intros u Hu. pose proof (cos_le_0 u ltac:(lra) ltac:(lra)).
      assert (exp (- kappa) <= E u). { apply expm_le. pose proof (ft_log_bound kappa (- a) u Hk) as B. apply abs_le_inv in B. lra. }
      pose proof (PE u). unfold g. assert (1 <= 1 - 1 / 2 * (1 + lam) * cos u) by nra. nra. }
    pose proof (Rmult_lt_0_compat _ _ (exp_pos (- kappa)) (ltac:(lra) : 0 < PI - PI / 2)). lra.
Qed.
