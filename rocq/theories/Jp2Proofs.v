(** Shape and special cases of jonespewsey; densities of the sine-skewed and asymmetric members. *)
From Verif Require Import Prelude NpModel NpProofs CircleSpec IntSpec IntProofs DistModel DistSpec DistProofs Dist2Proofs Dist4Proofs Dist5Proofs
  Dist6Proofs Dist7Proofs Dist8Proofs KjProofs Kj2Proofs VonModel VonSpec VonProofs Von2Proofs Von3Proofs Von4Proofs Von6Proofs GaussProofs Ws3Proofs JpModel JpSpec JpProofs.

(** ** Unimodality *)
Lemma arc_cos x mu d : is_arc_dist x mu d -> 0 <= d <= PI /\ cos d = cos (x - mu).
Proof.
  intros [[k Hk] Hmin]. pose proof PI_gt3. split.
  - split; [rewrite Hk; apply Rabs_pos|]. destruct (Rfloor_spec ((x - mu + PI) / (2 * PI))) as [F1 F2]. set (j := Rfloor ((x - mu + PI) / (2 * PI))) in *.
    assert (E : (x - mu + PI) / (2 * PI) * (2 * PI) = x - mu + PI) by (field; lra). eapply Rle_trans; [apply (Hmin (- j)%Z)|]. rewrite opp_IZR. apply Rabs_le. nra.
  - rewrite Hk. rewrite <- (cos_turns (x - mu) k). unfold Rabs. destruct (Rcase_abs _); [apply cos_neg|reflexivity].
Qed.
Lemma jp_kernel_mono kappa psi x y : 0 <= kappa -> cos x <= cos y -> jp_kernel kappa psi x <= jp_kernel kappa psi y.
Proof.
  intros Hk C. unfold jp_kernel. destruct (Rltb (Rabs psi) jp_ptol) eqn:E; [apply expm_le; nra|]. cbv zeta. unfold Rpower. apply expm_le.
  apply Rltb_false in E. assert (Np : psi <> 0) by (intros ->; rewrite Rabs_R0 in E; unfold jp_ptol in E; lra). pose proof ftiny_pos as T.
  set (A := kappa * psi) in *. set (bx := cosh A + sinh A * cos x). set (by' := cosh A + sinh A * cos y).
  pose proof (Rmax_r bx ftiny). pose proof (Rmax_r by' ftiny). destruct (Rlt_le_dec 0 psi) as [P|P].
  - assert (bx <= by') by (unfold bx, by'; pose proof (sinh_nonneg A ltac:(unfold A; nra)); nra).
    apply Rmult_le_compat_l; [apply Rlt_le, Rdiv_lt_0_compat; lra|]. apply ln_le_mono; [lra|]. apply Rle_max_compat_r; assumption.
  - assert (by' <= bx). { unfold bx, by'. pose proof (sinh_nonneg (- A) ltac:(unfold A; nra)) as S. rewrite sinh_neg in S. nra. }
    assert (L : ln (Rmax by' ftiny) <= ln (Rmax bx ftiny)) by (apply ln_le_mono; [lra|apply Rle_max_compat_r; assumption]).
    assert (1 / psi < 0). { unfold Rdiv. rewrite Rmult_1_l. apply Rinv_lt_0_compat. lra. } nra.
Qed.
Lemma jp_unimodal iv lpmv quad mu kappa psi : is_iv iv -> is_lpmv lpmv -> jp_ok mu kappa psi = true -> Rabs (kappa * psi) <= 500 ->
  quad_exact quad (fun x => jp_kernel kappa psi (x - mu)) (- PI) PI ->
  unimodal_about (public_pdf (jp_ok mu kappa psi) (jp_pdf iv lpmv quad mu kappa psi)) mu.
Proof.
  intros Hiv Hl Ho HA Hq. pose proof (proj1 (jp_ok_spec _ _ _) Ho) as [Hm Hk]. rewrite Ho.
  exists (fun x => jp_pdf iv lpmv quad mu kappa psi (wrap_angles x)). split; [intros x; apply public_pdf_fin|].
  intros x y dx dy Dx Dy Le. destruct (arc_cos _ _ _ Dx) as [Rx Cx]. destruct (arc_cos _ _ _ Dy) as [Ry Cy].
  destruct (Rlt_le_dec kappa jp_ktol) as [K|K]; [rewrite !jp_pdf_flat by lra; lra|]. rewrite !jp_pdf_kernel by exact K.
  destruct (jp_c_mass iv lpmv quad mu kappa psi Hiv Hl Hm K HA Hq) as (Z & Z0 & I & E). rewrite E.
  apply Rmult_le_compat_l; [apply Rlt_le, Rdiv_lt_0_compat; lra|]. apply jp_kernel_mono; [exact Hk|].
  assert (W : forall t, cos (wrap_angles t - mu) = cos (t - mu)).
  { intros t. destruct (wrap_same t) as [z Ez]. rewrite Ez. replace (t + 2 * PI * IZR z - mu) with (t - mu + 2 * PI * IZR z) by ring. apply cos_turns. }
  rewrite !W, <- Cx, <- Cy. apply cos_decr_1; lra.
Qed.

(** ** Special cases *)
Lemma jp_tanh kappa : 0 <= kappa -> 0 <= tanh kappa < 1.
Proof.
  intros H. unfold tanh. pose proof (sinh_nonneg kappa H). pose proof (cosh_ge1 kappa). split.
  - apply Rmult_le_pos; [assumption|]. apply Rlt_le, Rinv_0_lt_compat. lra.
  - apply (Rmult_lt_reg_r (cosh kappa)); [lra|]. unfold Rdiv. rewrite Rmult_assoc, Rinv_l, Rmult_1_r by lra. pose proof (cosh_sinh_m kappa). pose proof (exp_pos (- kappa)). lra.
Qed.
Lemma ptol1 : jp_ptol <= Rabs 1. Proof. rewrite Rabs_R1. unfold jp_ptol. lra. Qed.
Lemma ptolm1 : jp_ptol <= Rabs (- 1). Proof. rewrite Rabs_left by lra. unfold jp_ptol. lra. Qed.
Lemma jp_kernel_one kappa phi : 0 <= kappa <= 500 -> jp_kernel kappa 1 phi = cosh kappa + sinh kappa * cos phi.
Proof.
  intros H. rewrite jp_kernel_big; [|apply ptol1|rewrite Rmult_1_r, Rabs_pos_eq; lra]. rewrite Rmult_1_r. replace (1 / 1) with 1 by field.
  pose proof (jp_base_lo kappa phi). pose proof (exp_pos (- Rabs kappa)). rewrite Rpower_1 by lra. reflexivity.
Qed.
Lemma jp_kernel_mone kappa phi : 0 <= kappa <= 500 -> jp_kernel kappa (- 1) phi = / (cosh kappa - sinh kappa * cos phi) /\ 0 < cosh kappa - sinh kappa * cos phi.
Proof.
  intros H. rewrite jp_kernel_big; [|apply ptolm1|replace (kappa * - 1) with (- kappa) by ring; rewrite Rabs_Ropp, Rabs_pos_eq; lra].
  replace (kappa * - 1) with (- kappa) by ring. replace (1 / - 1) with (- (1)) by field. pose proof (jp_base_lo (- kappa) phi) as B. pose proof (exp_pos (- Rabs (- kappa))).
  assert (E : jp_base (- kappa) phi = cosh kappa - sinh kappa * cos phi) by (unfold jp_base; rewrite cosh_neg, sinh_neg; ring).
  rewrite E in *. rewrite Rpower_Ropp, Rpower_1 by lra. split; [reflexivity|lra].
Qed.
Lemma mass_one kappa : 0 <= kappa <= 500 -> integral (jp_kernel kappa 1) 0 (2 * PI) (2 * PI * cosh kappa).
Proof.
  intros H. pose proof PI_gt3. apply (integral_ext (fun x => cosh kappa + sinh kappa * cos x)); [lra|intros; symmetry; apply jp_kernel_one; exact H|].
  refine (integral_val _ _ _ (cosh kappa * (2 * PI - 0) + sinh kappa * 0) _ _ _); [ring|].
  apply (integral_plus (fun _ => cosh kappa) (fun x => sinh kappa * cos x)); [lra|apply integral_const|]. apply integral_scal; [lra|].
  refine (integral_val _ _ _ (sin (2 * PI) - sin 0) _ _ _); [rewrite sin_2PI, sin_0; ring|]. apply ftc; [lra|intros; apply cos_cont|intros; apply derivable_pt_lim_sin].
Qed.
Definition half_tanh (kappa : R) : R := tanh (kappa / 2).
Lemma half_cosh kappa : cosh kappa = cosh (kappa / 2) ^ 2 + sinh (kappa / 2) ^ 2 /\ sinh kappa = 2 * cosh (kappa / 2) * sinh (kappa / 2).
Proof.
  unfold cosh, sinh. set (a := exp (kappa / 2)). set (b := exp (- (kappa / 2))).
  assert (E1 : exp kappa = a * a) by (unfold a; rewrite <- exp_plus; f_equal; field).
  assert (E2 : exp (- kappa) = b * b) by (unfold b; rewrite <- exp_plus; f_equal; field).
  rewrite E1, E2. split; field.
Qed.
Lemma wc_as_kernel kappa mu x : 0 <= kappa <= 500 -> wc_pdf mu (tanh (kappa / 2)) x = 1 / (2 * PI) * jp_kernel kappa (- 1) (x - mu).
Proof.
  intros H. destruct (jp_kernel_mone kappa (x - mu) H) as [E P]. rewrite E. destruct (half_cosh kappa) as [HC HS]. rewrite HC, HS in *.
  pose proof (cosh_ge1 (kappa / 2)) as C1. pose proof (cosh_sq (kappa / 2)) as Q. pose proof PI_gt3. unfold wc_pdf, tanh.
  set (c := cosh (kappa / 2)) in *. set (s := sinh (kappa / 2)) in *. set (g := cos (x - mu)) in *.
  replace (1 - (s / c) ^ 2) with (/ c ^ 2) by (field_simplify; [|lra|lra]; f_equal; lra).
  replace (1 + (s / c) ^ 2 - 2 * (s / c) * g) with ((c ^ 2 + s ^ 2 - 2 * c * s * g) * / c ^ 2) by (field; lra). field. repeat split; lra.
Qed.
Lemma half_ok mu kappa : 0 <= mu <= 2 * PI -> 0 <= kappa -> wc_ok mu (tanh (kappa / 2)) = true.
Proof.
  intros Hm Hk. pose proof (jp_tanh (kappa / 2) ltac:(lra)). unfold wc_ok. rewrite !andb_true_iff, !Rleb_true, Rltb_true. lra.
Qed.
Lemma mass_mone kappa : 0 <= kappa <= 500 -> integral (jp_kernel kappa (- 1)) 0 (2 * PI) (2 * PI).
Proof.
  intros H. pose proof PI_gt3. pose proof (half_ok 0 kappa ltac:(lra) ltac:(lra)) as Ho. destruct (wc_density _ _ Ho) as (f & Ef & _ & _ & I1).
  assert (I : integral f 0 (2 * PI) 1) by exact I1. rewrite Ho in Ef.
  apply (integral_ext (fun x => 2 * PI * f x)); [lra| |apply (integral_val _ _ _ (2 * PI * 1)); [ring|apply integral_scal; [lra|exact I]]].
  intros x _. pose proof (Ef x) as E. rewrite public_pdf_fin in E. injection E as E. rewrite <- E, wc_as_kernel by exact H.
  rewrite (jp_kernel_cosx kappa (- 1) (wrap_angles x - 0) x); [field; lra|]. destruct (wrap_same x) as [z Ez]. rewrite Ez. rewrite Rminus_0_r. apply cos_turns.
Qed.
Lemma jp_special iv lpmv quad mu kappa psi : is_iv iv -> is_lpmv lpmv -> jp_ok mu kappa psi = true -> jp_ktol <= kappa <= 500 ->
  quad_exact quad (fun x => jp_kernel kappa psi (x - mu)) (- PI) PI -> forall x,
  (psi = 1 -> jp_pdf iv lpmv quad mu kappa psi x = car_pdf mu (tanh kappa / 2) x /\ car_ok mu (tanh kappa / 2) = true) /\
  (psi = - 1 -> jp_pdf iv lpmv quad mu kappa psi x = wc_pdf mu (tanh (kappa / 2)) x /\ wc_ok mu (tanh (kappa / 2)) = true) /\
  (Rabs psi < jp_ptol -> jp_pdf iv lpmv quad mu kappa psi x = von_pdf iv mu kappa x /\ von_ok mu kappa = true).
Proof.
  intros Hiv Hl Ho Hk Hq x. pose proof (proj1 (jp_ok_spec _ _ _) Ho) as [Hm Hk0]. pose proof PI_gt3.
  assert (K0 : 0 < jp_ktol) by (unfold jp_ktol; lra). rewrite jp_pdf_kernel by lra. split; [|split].
  - intros ->. destruct (jp_c_mass iv lpmv quad mu kappa 1 Hiv Hl Hm ltac:(lra) ltac:(rewrite Rmult_1_r, Rabs_pos_eq; lra) Hq) as (Z & Z0 & I & E).
    rewrite (integral_unique _ _ _ _ _ I (mass_one kappa ltac:(lra))) in E. rewrite E, jp_kernel_one by lra. pose proof (cosh_ge1 kappa).
    split; [unfold car_pdf, tanh; field; lra|]. pose proof (jp_tanh kappa ltac:(lra)). unfold car_ok. rewrite !andb_true_iff, !Rleb_true. lra.
  - intros ->. destruct (jp_c_mass iv lpmv quad mu kappa (- 1) Hiv Hl Hm ltac:(lra) ltac:(replace (kappa * - 1) with (- kappa) by ring; rewrite Rabs_Ropp, Rabs_pos_eq; lra) Hq) as (Z & Z0 & I & E).
    rewrite (integral_unique _ _ _ _ _ I (mass_mone kappa ltac:(lra))) in E. rewrite E, wc_as_kernel by lra. split; [reflexivity|apply half_ok; lra].
  - intros Hp. unfold jp_c, jp_kernel. rewrite (proj2 (Rltb_false kappa jp_ktol)), (proj2 (Rltb_true (Rabs psi) jp_ptol)) by lra.
    split; [unfold von_pdf, Rdiv; ring|]. unfold von_ok. rewrite !andb_true_iff, !Rleb_true, Rltb_true. lra.
Qed.

(** ** The sine-skewed density *)
Definition ss_kernel (k : R -> R) (lam phi : R) : R := k phi * (1 + lam * sin phi).
Lemma ss_mass k lam Z : (forall x, continuity_pt k x) -> (forall x, k (- x) = k x) -> (forall x (z : BinNums.Z), k (x + 2 * PI * IZR z) = k x) ->
  integral k 0 (2 * PI) Z -> integral (ss_kernel k lam) 0 (2 * PI) Z.
Proof.
  intros C Ev P I. pose proof PI_gt3. assert (Cs : forall x, continuity_pt (fun t => k t * sin t) x) by (intros x; apply cont_mult; [apply C|apply continuity_sin]).
  destruct (continuous_integral (fun t => k t * sin t) 0 (2 * PI)) as [w W]; [lra|intros; apply Cs|].
  assert (w = 0). { apply (odd_integral _ _ Cs); [|exact W]. intros x. cbv beta. replace (2 * PI - x) with (- x + 2 * PI * IZR 1) by ring. rewrite P, Ev, NpProofs.sin_turns, sin_neg. ring. }
  subst w. apply (integral_ext (fun t => k t + lam * (k t * sin t))); [lra|intros; unfold ss_kernel; ring|].
  apply (integral_val _ _ _ (Z + lam * 0)); [ring|]. apply integral_plus; [lra|exact I|]. apply (integral_scal (fun t => k t * sin t)); [lra|exact W].
Qed.
Lemma ss_ok_spec xi kappa psi lam : ss_ok xi kappa psi lam = true <-> 0 <= xi <= 2 * PI /\ 0 <= kappa /\ -1 <= lam <= 1.
Proof. unfold ss_ok. rewrite !andb_true_iff, !Rleb_true. tauto. Qed.
Lemma ss_density iv lpmv quad xi kappa psi lam : is_iv iv -> is_lpmv lpmv -> ss_ok xi kappa psi lam = true -> Rabs (kappa * psi) <= 500 ->
  quad_exact quad (fun x => jp_kernel kappa psi (x - xi)) (- PI) PI ->
  pdf_is_density (public_pdf (ss_ok xi kappa psi lam) (ss_pdf iv lpmv quad xi kappa psi lam)).
Proof.
  intros Hiv Hl Ho HA Hq. pose proof PI_gt3. pose proof (proj1 (ss_ok_spec _ _ _ _) Ho) as (Hm & Hk & Hlam).
  assert (K0 : 0 < jp_ktol) by (unfold jp_ktol; lra).
  assert (Sn : forall x, 0 <= 1 + lam * sin x) by (intros x; pose proof (SIN_bound x); nra).
  assert (Cs : forall k x, (forall x, continuity_pt k x) -> continuity_pt (ss_kernel k lam) x).
  { intros k x C. apply cont_mult; [apply C|]. apply cont_plus; [apply cont_const|]. apply cont_mult; [apply cont_const|apply continuity_sin]. }
  assert (St : forall x (z : Z), sin (x + 2 * PI * IZR z) = sin x) by (intros; apply NpProofs.sin_turns).
  destruct (Rlt_le_dec kappa jp_ktol) as [K|K].
  - apply (kernel_density _ (ss_kernel (fun _ => 1) lam) _ (2 * PI) xi Ho Hm).
    + intros x. apply Cs. intros; apply cont_const.
    + intros x. unfold ss_kernel. pose proof (Sn x). lra.
    + intros x z. unfold ss_kernel. rewrite St. reflexivity.
    + apply ss_mass; try (intros; reflexivity); [intros; apply cont_const|]. apply (integral_val _ _ _ (1 * (2 * PI - 0))); [ring|apply integral_const].
    + lra.
    + intros x. unfold ss_pdf. rewrite (proj2 (Rltb_true _ _)) by (rewrite Rabs_pos_eq; lra). unfold ss_kernel. ring.
  - destruct (jp_c_mass iv lpmv quad xi kappa psi Hiv Hl Hm K HA Hq) as (Z & Z0 & I & E).
    apply (kernel_density _ (ss_kernel (jp_kernel kappa psi) lam) _ Z xi Ho Hm).
    + intros x. apply Cs, jp_kernel_cont.
    + intros x. unfold ss_kernel. apply Rmult_le_pos; [left; apply jp_kernel_pos|apply Sn].
    + intros x z. unfold ss_kernel. rewrite St, jp_kernel_turns. reflexivity.
    + apply ss_mass; [apply jp_kernel_cont|apply jp_kernel_even|apply jp_kernel_turns|exact I].
    + exact Z0.
    + intros x. unfold ss_pdf. rewrite (proj2 (Rltb_false _ _)) by (rewrite Rabs_pos_eq; lra). rewrite E. unfold ss_kernel. ring.
Qed.

(** ** The asymmetric density *)
Lemma as_ok_spec xi kappa psi nu : as_ok xi kappa psi nu = true <-> 0 <= xi <= 2 * PI /\ 0 <= kappa /\ 0 <= nu < 1.
Proof. unfold as_ok. rewrite !andb_true_iff, !Rleb_true, Rltb_true. tauto. Qed.
Lemma as_kernel_cont kappa psi nu x : continuity_pt (as_kernel kappa psi nu) x.
Proof.
  unfold as_kernel. apply (cont_comp (jp_kernel kappa psi) (fun t => t + nu * cos t)); [|apply jp_kernel_cont].
  apply cont_plus; [apply derivable_continuous_pt, derivable_pt_id|apply cont_mult; [apply cont_const|apply cos_cont]].
Qed.
Lemma as_kernel_turns kappa psi nu x (z : Z) : as_kernel kappa psi nu (x + 2 * PI * IZR z) = as_kernel kappa psi nu x.
Proof.
  unfold as_kernel. rewrite (cos_turns x z). replace (x + 2 * PI * IZR z + nu * cos x) with (x + nu * cos x + 2 * PI * IZR z) by ring. apply jp_kernel_turns.
Qed.
Lemma as_density quad xi kappa psi nu : as_ok xi kappa psi nu = true ->
  quad_exact quad (fun x => as_kernel kappa psi nu (x - xi)) (- PI) PI ->
  pdf_is_density (public_pdf (as_ok xi kappa psi nu) (as_pdf quad xi kappa psi nu)).
Proof.
  intros Ho Hq. pose proof PI_gt3. pose proof (proj1 (as_ok_spec _ _ _ _) Ho) as (Hm & Hk & Hn). destruct (Rlt_le_dec kappa jp_ktol) as [K|K].
  - apply (kernel_density _ (fun _ => 1) _ (2 * PI) xi Ho Hm); try (intros; apply cont_const) || (intros; lra) || (intros; reflexivity).
    + apply (integral_val _ _ _ (1 * (2 * PI - 0))); [ring|apply integral_const].
    + intros x. unfold as_pdf. rewrite (proj2 (Rltb_true _ _)); [ring|rewrite Rabs_pos_eq; lra].
  - assert (0 < jp_ktol) by (unfold jp_ktol; lra).
    pose proof (quad_mass _ xi _ Hm (as_kernel_cont kappa psi nu) (as_kernel_turns kappa psi nu) Hq) as Iq.
    pose proof (positive_mass _ _ (as_kernel_cont kappa psi nu) (fun x => jp_kernel_pos kappa psi (x + nu * cos x)) Iq) as Z0.
    apply (kernel_density _ (as_kernel kappa psi nu) _ (quad (fun x => as_kernel kappa psi nu (x - xi)) (- PI) PI) xi Ho Hm (as_kernel_cont kappa psi nu)); try assumption.
    + intros x. left. apply jp_kernel_pos.
    + apply as_kernel_turns.
    + intros x. unfold as_pdf, as_c. rewrite (proj2 (Rltb_false (Rabs _) _)), (proj2 (Rltb_false kappa _)) by (try rewrite Rabs_pos_eq; lra). reflexivity.
Qed.
Lemma as_pdf_pos quad xi kappa psi nu x : as_ok xi kappa psi nu = true ->
  quad_exact quad (fun x => as_kernel kappa psi nu (x - xi)) (- PI) PI -> 0 < as_pdf quad xi kappa psi nu x.
Proof.
  intros Ho Hq. pose proof PI_gt3. pose proof (proj1 (as_ok_spec _ _ _ _) Ho) as (Hm & Hk & Hn). unfold as_pdf, as_c.
  destruct (Rltb (Rabs kappa) jp_ktol) eqn:K; [apply Rdiv_lt_0_compat; lra|]. rewrite Rabs_pos_eq in K by lra. rewrite K.
  pose proof (quad_mass _ xi _ Hm (as_kernel_cont kappa psi nu) (as_kernel_turns kappa psi nu) Hq) as Iq.
  pose proof (positive_mass _ _ (as_kernel_cont kappa psi nu) (fun x => jp_kernel_pos kappa psi (x + nu * cos x)) Iq) as Z0.
  apply Rmult_lt_0_compat; [apply Rdiv_lt_0_compat; lra|apply jp_kernel_pos].
Qed.
