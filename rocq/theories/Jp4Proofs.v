(** Where the cdf series is exact, and where it is not monotone. *)
From Verif Require Import Prelude NpModel NpProofs CircleSpec IntSpec IntProofs DistModel DistSpec DistProofs Dist2Proofs Dist4Proofs Dist5Proofs
  Dist6Proofs Dist7Proofs Dist8Proofs KjProofs Kj2Proofs Kj3Proofs VonModel VonSpec VonProofs Von2Proofs Von3Proofs Von4Proofs Von5Proofs Von6Proofs GaussProofs Ws3Proofs WnProofs JpModel JpSpec JpProofs Jp2Proofs Jp3Proofs.
From Coq Require Import Ratan.

(** ** Equally spaced sums *)
Lemma equi_sum a d : forall M, 2 * sin (d / 2) * Rsum (map (fun k => cos (a + INR k * d)) (seq 0 M)) = sin (a + (INR M - 1 / 2) * d) - sin (a - d / 2).
Proof.
  induction M as [|M IH].
  - cbn [seq map]. change (Rsum []) with 0. change (INR 0) with 0. replace (a + (0 - 1 / 2) * d) with (a - d / 2) by field. ring.
  - rewrite seq_S, map_app, Rsum_app, Rmult_plus_distr_l, IH. cbn [map]. change (Rsum [?a]) with (a + 0). rewrite S_INR, Nat.add_0_l.
    replace (a + (INR M + 1 - 1 / 2) * d) with (a + INR M * d + d / 2) by field. replace (a + (INR M - 1 / 2) * d) with (a + INR M * d - d / 2) by field.
    rewrite (sin_plus _ (d / 2)), (sin_minus _ (d / 2)). ring.
Qed.
Lemma size_INR : INR jp_size = 4096.
Proof. unfold jp_size. rewrite INR_IZR_INZ, Z2Nat.id by lia. reflexivity. Qed.
Lemma grid_sum (n : nat) : (n <= 300)%nat -> Rsum (map (fun k => cos (INR n * jp_grid k)) (seq 0 jp_size)) = if Nat.eqb n 0 then 4096 else 0.
Proof.
  intros Hn. pose proof PI_gt3. destruct (Nat.eqb_spec n 0) as [->|N0].
  - rewrite (Rsum_ext_map _ (fun _ => 1)) by (intros; rewrite Rmult_0_l; apply cos_0).
    assert (G : forall m a, Rsum (map (fun _ : nat => 1) (seq a m)) = INR m).
    { induction m as [|m IH]; intros a; [reflexivity|]. cbn [seq map]. change (Rsum (?x :: ?y)) with (x + Rsum y). rewrite IH, S_INR. ring. }
    rewrite G. apply size_INR.
  - set (d := INR n * (2 * PI / 4096)). pose proof (equi_sum (- (INR n * PI)) d jp_size) as E. rewrite size_INR in E.
    assert (Hn1 : 1 <= INR n) by (change 1 with (INR 1); apply le_INR; lia).
    assert (Hn2 : INR n <= 300) by (replace 300 with (INR 300) by (rewrite INR_IZR_INZ; reflexivity); apply le_INR; lia).
    replace (- (INR n * PI) + (4096 - 1 / 2) * d) with (- (INR n * PI) - d / 2 + 2 * PI * IZR (Z.of_nat n)) in E by (unfold d; rewrite <- INR_IZR_INZ; field).
    rewrite NpProofs.sin_turns in E.
    assert (S : 0 < sin (d / 2)) by (apply sin_gt_0; unfold d; nra).
    rewrite (Rsum_ext_map _ (fun k => cos (- (INR n * PI) + INR k * d))) by (intros k _; unfold jp_grid, d; f_equal; field). nra.
Qed.
Lemma coeff_cardioid pdf0 rho n : (forall x, pdf0 x = (1 + 2 * rho * cos x) / (2 * PI)) -> 0 <= rho <= 1 -> (1 <= n <= 256)%nat ->
  jp_coeff pdf0 n = if Nat.eqb n 1 then rho else 0.
Proof.
  intros E Hr Hn. pose proof PI_gt3. rewrite coeff_riemann.
  2: { intros x z. rewrite !E, NpProofs.cos_turns. reflexivity. }
  assert (V : riemann_turn (fun t => cos (INR n * t) * pdf0 t) = if Nat.eqb n 1 then rho else 0).
  { unfold riemann_turn. fold jp_size.
    rewrite (Rsum_ext_map _ (fun k => / (2 * PI) * (cos (INR n * jp_grid k) + rho * (cos (INR (n + 1) * jp_grid k) + cos (INR (n - 1) * jp_grid k))))).
    2: { intros k _. fold (jp_grid k). rewrite E, plus_INR, minus_INR by lia. change (INR 1) with 1.
      replace ((INR n + 1) * jp_grid k) with (INR n * jp_grid k + jp_grid k) by ring. replace ((INR n - 1) * jp_grid k) with (INR n * jp_grid k - jp_grid k) by ring.
      rewrite cos_plus, cos_minus. field. lra. }
    rewrite Rsum_scal_map, Rsum_plus_map, Rsum_scal_map, Rsum_plus_map, !grid_sum by lia.
    replace (n =? 0)%nat with false by (symmetry; apply Nat.eqb_neq; lia). replace (n + 1 =? 0)%nat with false by (symmetry; apply Nat.eqb_neq; lia).
    destruct (Nat.eqb_spec n 1) as [->|N1]; [cbn [Nat.sub Nat.eqb]; field; lra|].
    replace (n - 1 =? 0)%nat with false by (symmetry; apply Nat.eqb_neq; lia). field. lra. }
  rewrite V. destruct (Nat.eqb n 1); apply clip_in; lra.
Qed.
Lemma last_one c : (forall n, (2 <= n <= 256)%nat -> c n = 0) -> jp_last c = 1%nat.
Proof.
  intros H. unfold jp_last.
  assert (G : forall l, (forall n, In n l -> (2 <= n <= 256)%nat) -> fold_left (fun acc n => if Rltb (5 / 10 ^ 12) (Rabs (c n / INR n)) then n else acc) l 1%nat = 1%nat).
  { induction l as [|n l IH]; intros Hl; [reflexivity|]. cbn [fold_left]. rewrite (H n) by (apply Hl; left; reflexivity). replace (0 / INR n) with 0 by (unfold Rdiv; ring). rewrite Rabs_R0.
    rewrite (proj2 (Rltb_false _ _)) by lra. apply IH. intros; apply Hl; right; assumption. }
  assert (Hs : forall n, In n (seq 2 255) -> (2 <= n <= 256)%nat) by (intros n Hn; apply in_seq in Hn; lia).
  change (seq 1 256) with (1%nat :: seq 2 255). revert Hs. generalize (seq 2 255). intros l Hs. cbn [fold_left]. replace (if Rltb (5 / 10 ^ 12) (Rabs (c 1%nat / INR 1)) then 1%nat else 1%nat) with 1%nat by (destruct (Rltb _ _); reflexivity).
  apply G. exact Hs.
Qed.
(** A cdf that is the clipped integral of a non-negative polynomial is its distribution function. *)
Lemma series_describes (F f : R -> R) a N lam mu : (forall x, f x = skew_series a N lam (x - mu)) -> (forall x, 0 <= f x) ->
  (forall x v, 0 < x < 2 * PI -> v = jp_G a N lam (x - mu) - jp_G a N lam (- mu) -> F x = clip v 0 1) ->
  describes (public_pdf true f) (public_cdf true F).
Proof.
  intros Ef Nn EF. pose proof PI_gt3. set (G := fun x => jp_G a N lam (x - mu) - jp_G a N lam (- mu)).
  assert (D : forall x, derivable_pt_lim G x (f x)).
  { intros x. unfold G. eapply dlim_eq; [|apply dlim_minus; [apply (dlim_comp (jp_G a N lam) (fun t => t - mu)); [apply dlim_minus; [apply dlim_id|apply dlim_const]|apply G_d]|apply dlim_const]].
    rewrite Ef. cbv beta. ring. }
  assert (G0 : G 0 = 0) by (unfold G; rewrite Rminus_0_l; ring).
  assert (G1 : G (2 * PI) = 1). { unfold G. replace (2 * PI - mu) with (- mu + 2 * PI * IZR 1) by ring. rewrite G_turns. ring. }
  assert (C : forall x, continuity_pt f x) by (intros x; apply (cont_ext (fun x => skew_series a N lam (x - mu))); [intros; symmetry; apply Ef|apply continuity_shift, series_cont]).
  assert (M : forall x y, x <= y -> G x <= G y). {
    intros x y Hxy. assert (I : integral f x y (G y - G x)) by (apply ftc; [exact Hxy|intros; apply C|intros; apply D]).
    pose proof (integral_le (fun _ => 0) f x y (0 * (y - x)) _ Hxy (fun t _ => Nn t) (integral_const x y 0) I). lra. }
  apply (describes_intro f F G); auto.
  - intros x Hx. rewrite (EF x (G x) Hx eq_refl). apply clip_in. pose proof (M 0 x). pose proof (M x (2 * PI)). lra.
  - rewrite !Ef. replace (2 * PI - mu) with (0 - mu + 2 * PI) by ring. unfold skew_series. rewrite sin_period || idtac.
    change (cos_series a N (0 - mu + 2 * PI)) with (cpoly a N (0 - mu + 2 * PI)). rewrite cpoly_per. change (cpoly a N (0 - mu)) with (cos_series a N (0 - mu)). f_equal. f_equal. f_equal.
    replace (0 - mu + 2 * PI) with (0 - mu + 2 * INR 1 * PI) by (change (INR 1) with 1; ring). rewrite sin_period. reflexivity.
Qed.
(** The coefficients at psi = 1. *)
Lemma one_coeffs iv lpmv quad kappa : is_iv iv -> is_lpmv lpmv -> jp_ktol <= kappa <= 500 ->
  quad_exact quad (fun x => jp_kernel kappa 1 (x - 0)) (- PI) PI ->
  let a := jp_coeff (jp_pdf iv lpmv quad 0 kappa 1) in
  jp_last a = 1%nat /\ a 1%nat = tanh kappa / 2.
Proof.
  intros Hiv Hl Hk Hq a. pose proof PI_gt3. assert (K0 : 0 < jp_ktol) by (unfold jp_ktol; lra). pose proof (jp_tanh kappa ltac:(lra)) as T.
  assert (Ok : jp_ok 0 kappa 1 = true) by (apply jp_ok_spec; lra).
  assert (E : forall x, jp_pdf iv lpmv quad 0 kappa 1 x = (1 + 2 * (tanh kappa / 2) * cos x) / (2 * PI)).
  { intros x. rewrite (proj1 (proj1 (jp_special iv lpmv quad 0 kappa 1 Hiv Hl Ok Hk Hq x) eq_refl)). unfold car_pdf. rewrite Rminus_0_r. field. lra. }
  split.
  - apply last_one. intros n Hn. unfold a. rewrite (coeff_cardioid _ _ _ E) by (lia || lra). replace (n =? 1)%nat with false by (symmetry; apply Nat.eqb_neq; lia). reflexivity.
  - unfold a. rewrite (coeff_cardioid _ _ _ E) by (lia || lra). reflexivity.
Qed.
Lemma kappa_psi_one kappa : jp_ktol <= kappa <= 500 -> Rabs (kappa * 1) <= 500.
Proof. intros H. assert (K0 : 0 < jp_ktol) by (unfold jp_ktol; lra). rewrite Rmult_1_r, Rabs_pos_eq; lra. Qed.
Lemma one_series a kappa mu x lam : jp_last a = 1%nat -> a 1%nat = tanh kappa / 2 -> skew_series a (jp_last a) lam (x - mu) = car_pdf mu (tanh kappa / 2) x * (1 + lam * sin (x - mu)).
Proof.
  intros E1 E2. pose proof PI_gt3. rewrite E1. unfold skew_series, cos_series. cbn [seq map]. change (Rsum [?a]) with (a + 0). rewrite E2. change (INR 1) with 1. unfold car_pdf.
  rewrite Rmult_1_l. field. lra.
Qed.
Lemma jp_cdf_one iv num lpmv quad mu kappa : is_iv iv -> is_lpmv lpmv -> jp_ok mu kappa 1 = true -> jp_ktol <= kappa <= 500 ->
  quad_exact quad (fun x => jp_kernel kappa 1 (x - 0)) (- PI) PI -> quad_exact quad (fun x => jp_kernel kappa 1 (x - mu)) (- PI) PI ->
  describes (public_pdf (jp_ok mu kappa 1) (jp_pdf iv lpmv quad mu kappa 1)) (public_cdf (jp_ok mu kappa 1) (jp_cdf iv num lpmv quad mu kappa 1)).
Proof.
  intros Hiv Hl Ho Hk Hq0 Hq. rewrite Ho. pose proof (one_coeffs iv lpmv quad kappa Hiv Hl Hk Hq0) as [E1 E2]. cbv zeta in E1, E2. set (a := jp_coeff (jp_pdf iv lpmv quad 0 kappa 1)) in *.
  assert (P : forall x, jp_pdf iv lpmv quad mu kappa 1 x = car_pdf mu (tanh kappa / 2) x /\ car_ok mu (tanh kappa / 2) = true) by (intros x; apply (jp_special iv lpmv quad mu kappa 1 Hiv Hl Ho Hk Hq x); reflexivity).
  apply (series_describes _ _ a (jp_last a) 0 mu).
  - intros x. rewrite (one_series a kappa) by assumption. rewrite (proj1 (P x)). ring.
  - intros x. rewrite (proj1 (P x)). apply car_pdf_nonneg. apply (car_ok_spec mu). exact (proj2 (P 0)).
  - intros x v Hx ->. pose proof (unwrap_cdf (jp_G a (jp_last a) 0) mu x (G_turns a (jp_last a) 0) Hx) as U. cbv zeta in U. rewrite <- U.
    unfold jp_cdf. rewrite (proj2 (Rltb_false kappa _)), (proj2 (Rltb_false (Rabs 1) _)) by (pose proof ptol1; lra). cbv zeta. fold a. unfold jp_G.
    destruct (Rleb _ _); f_equal; ring.
Qed.
Lemma ss_cdf_one iv num lpmv quad xi kappa lam : is_iv iv -> is_lpmv lpmv -> ss_ok xi kappa 1 lam = true -> jp_ktol <= kappa <= 500 ->
  quad_exact quad (fun x => jp_kernel kappa 1 (x - 0)) (- PI) PI -> quad_exact quad (fun x => jp_kernel kappa 1 (x - xi)) (- PI) PI ->
  describes (public_pdf (ss_ok xi kappa 1 lam) (ss_pdf iv lpmv quad xi kappa 1 lam)) (public_cdf (ss_ok xi kappa 1 lam) (ss_cdf iv num lpmv quad xi kappa 1 lam)).
Proof.
  intros Hiv Hl Ho Hk Hq0 Hq. rewrite Ho. pose proof (one_coeffs iv lpmv quad kappa Hiv Hl Hk Hq0) as [E1 E2]. cbv zeta in E1, E2. set (a := jp_coeff (jp_pdf iv lpmv quad 0 kappa 1)) in *.
  pose proof (proj1 (ss_ok_spec _ _ _ _) Ho) as (Hm & Hk0 & Hlam). assert (K0 : 0 < jp_ktol) by (unfold jp_ktol; lra).
  assert (Ho' : jp_ok xi kappa 1 = true) by (apply jp_ok_spec; lra).
  assert (P : forall x, jp_pdf iv lpmv quad xi kappa 1 x = car_pdf xi (tanh kappa / 2) x /\ car_ok xi (tanh kappa / 2) = true) by (intros x; apply (jp_special iv lpmv quad xi kappa 1 Hiv Hl Ho' Hk Hq x); reflexivity).
  assert (S : forall x, ss_pdf iv lpmv quad xi kappa 1 lam x = car_pdf xi (tanh kappa / 2) x * (1 + lam * sin (x - xi))).
  { intros x. rewrite <- (proj1 (P x)). unfold ss_pdf. rewrite (proj2 (Rltb_false _ _)) by (rewrite Rabs_pos_eq; lra). rewrite jp_pdf_kernel by lra. reflexivity. }
  apply (series_describes _ _ a (jp_last a) lam xi).
  - intros x. rewrite (one_series a kappa) by assumption. apply S.
  - intros x. rewrite S. apply Rmult_le_pos; [apply car_pdf_nonneg; apply (car_ok_spec xi); exact (proj2 (P 0))|]. pose proof (SIN_bound (x - xi)). nra.
  - intros x v Hx ->. pose proof (unwrap_cdf (jp_G a (jp_last a) lam) xi x (G_turns a (jp_last a) lam) Hx) as U. cbv zeta in U. rewrite <- U.
    unfold ss_cdf. rewrite (proj2 (Rltb_false kappa _)), (proj2 (Rltb_false (Rabs 1) _)) by (pose proof ptol1; lra). cbn [andb]. cbv zeta. fold a. unfold jp_G.
    destruct (Rltb_spec 0 (Rabs lam)) as [B|B]; [destruct (Rleb _ _); f_equal; ring|].
    assert (lam = 0) as -> by (destruct (Req_dec lam 0) as [Z|Z]; [exact Z|apply Rabs_pos_lt in Z; lra]). destruct (Rleb _ _); f_equal; ring.
Qed.
Lemma jp_cdf_flat iv num lpmv quad mu kappa psi : jp_ok mu kappa psi = true -> kappa < jp_ktol ->
  describes (public_pdf (jp_ok mu kappa psi) (jp_pdf iv lpmv quad mu kappa psi)) (public_cdf (jp_ok mu kappa psi) (jp_cdf iv num lpmv quad mu kappa psi)).
Proof.
  intros Ho Hk. rewrite Ho. pose proof (proj1 (jp_ok_spec _ _ _) Ho) as [Hm Hk0]. pose proof PI_gt3.
  apply (describes_intro _ _ (fun x => x / (2 * PI))).
  - intros x _. apply (cont_ext (fun _ => 1 / (2 * PI))); [intros; symmetry; apply jp_pdf_flat; lra|apply cont_const].
  - intros x _. rewrite jp_pdf_flat by lra. apply dlim_divc, dlim_id.
  - field. lra.
  - field. lra.
  - intros x Hx. unfold jp_cdf. rewrite (proj2 (Rltb_true _ _)) by lra. rewrite pymod_small by lra. reflexivity.
  - intros x _. rewrite jp_pdf_flat by lra. apply Rlt_le, Rdiv_lt_0_compat; lra.
  - rewrite !jp_pdf_flat by lra. reflexivity.
Qed.
