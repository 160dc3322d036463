From Verif Require Import Prelude NpModel NpProofs CircleSpec UtilsModel UtilsProofs DescModel Desc2Model DescProofs
  DescSpec DescApi DescApi2 HypProofs HypMultiModel HypMulti2Model HypMultiSpec HypMultiProofs HypMulti7Proofs
  CorrSpec CorrProofs Corr2Proofs Corr4Proofs Corr6Proofs ClusModel ClusSpec ClusProofs Clus2Proofs Clus3Proofs Clus4Proofs Clus8Proofs
  EmModel EmSpec EmProofs Em2Proofs Em3Proofs Em4Proofs Em5Proofs Em6Proofs Em7Proofs Em8Proofs Em9Proofs Em10Proofs Em11Proofs.

(** * The likelihood of the angles 0 and pi under components at 0 and pi *)
Definition cfg2 : em_cfg := {| c_burnin := 0; c_K := 2; c_iters := 1; c_threshold := / 10 ^ 16; c_radian := true; c_cycle := 360 |}.
Lemma cfg2_ok : cfg_ok cfg2.
Proof. split; [cbn; lia|split; [cbn; lia|]]. cbn [cfg2 c_threshold]. lra. Qed.
Definition cosh2 (k : R) : R := exp k + exp (- k).
Lemma exp_up x : x < 1 -> exp x <= / (1 - x).
Proof. intros H. rewrite <- (Ropp_involutive x) at 1. rewrite exp_Ropp. apply Rinv_le_contravar; [lra|]. pose proof (exp_ineq1_le (- x)). lra. Qed.
Lemma cosh2_sq k : cosh2 k = (exp (k / 2) - exp (- (k / 2))) ^ 2 + 2.
Proof.
  unfold cosh2. replace k with (k / 2 + k / 2) at 1 by field. replace (- k) with (- (k / 2) + - (k / 2)) by field. rewrite !exp_plus.
  assert (exp (k / 2) * exp (- (k / 2)) = 1) by (rewrite <- exp_plus, <- exp_0; f_equal; ring). nra.
Qed.
Lemma cosh2_up k : 0 <= k <= / 10 -> cosh2 k <= 2 + (k * (1 + k)) ^ 2.
Proof.
  intros H. rewrite cosh2_sq. pose proof (exp_up (k / 2) ltac:(lra)) as U. pose proof (exp_ineq1_le (- (k / 2))) as L.
  assert (/ (1 - k / 2) <= 1 - k / 2 + k * (1 + k)).
  { apply (Rmult_le_reg_l (1 - k / 2)); [lra|]. rewrite Rinv_r by lra. nra. }
  assert (0 <= exp (k / 2) - exp (- (k / 2))) by (assert (exp (- (k / 2)) <= exp (k / 2)); [|lra]; destruct (Req_dec k 0) as [->|]; [right; f_equal; field|left; apply exp_increasing; lra]).
  assert (exp (k / 2) - exp (- (k / 2)) <= k * (1 + k)) by lra. nra.
Qed.
Lemma cosh2_lo k : 0 <= k <= / 10 -> 2 + (k * (1 - k)) ^ 2 <= cosh2 k.
Proof.
  intros H. rewrite cosh2_sq. pose proof (exp_ineq1_le (k / 2)) as L. pose proof (exp_up (- (k / 2)) ltac:(lra)) as U.
  assert (/ (1 - - (k / 2)) <= 1 + k / 2 - k * (1 - k)).
  { apply (Rmult_le_reg_l (1 - - (k / 2))); [lra|]. rewrite Rinv_r by lra. pose proof (pow_le k 3 ltac:(lra)). pose proof (pow_le k 2 ltac:(lra)).
    replace ((1 - - (k / 2)) * (1 + k / 2 - k * (1 - k))) with (1 + 3 / 4 * k ^ 2 + k ^ 3 / 2) by field. lra. }
  assert (D : k * (1 - k) <= exp (k / 2) - exp (- (k / 2))) by lra. pose proof (pow_incr (k * (1 - k)) _ 2 (conj (Rmult_le_pos k (1 - k) ltac:(lra) ltac:(lra)) D)). lra.
Qed.
Definition k0 : R := / 1000.
Definition t0 : R := (exp k0 - exp (- k0)) / cosh2 k0.
Lemma t0_bounds : 99 / 100000 <= t0 <= 11 / 10000.
Proof.
  unfold t0, cosh2, k0. pose proof (exp_pos (/ 1000)). pose proof (exp_pos (- / 1000)). pose proof (exp_ineq1_le (/ 1000)).
  pose proof (exp_ineq1_le (- / 1000)). pose proof (exp_up (/ 1000) ltac:(lra)). pose proof (exp_up (- / 1000) ltac:(lra)).
  assert (/ (1 - / 1000) <= 1 + 10011 / 10000000) by lra. assert (/ (1 - - / 1000) <= 1 - 9989 / 10000000) by (replace (1 - - / 1000) with (1001 / 1000) by field; lra).
  split; [apply le_divr|apply le_divl]; lra.
Qed.

Definition k1 : R := Rmax (kappa0 t0) (/ 1000).
Lemma k1_bounds : 198 / 100000 <= k1 <= 23 / 10000.
Proof.
  pose proof t0_bounds as T. unfold k1, kappa0. destruct (Rltb_spec t0 (53 / 100)) as [_|Z]; [|lra]. assert (0 <= t0 ^ 3 <= 1 / 10000000 /\ 0 <= t0 ^ 5 <= 1 / 10000000).
  { replace (t0 ^ 3) with (t0 * (t0 * t0)) by ring. replace (t0 ^ 5) with (t0 * (t0 * t0) * (t0 * t0)) by ring. assert (0 <= t0 * t0 <= 2 / 1000000) by nra.
    assert (0 <= t0 * (t0 * t0) <= 1 / 100000000) by nra. split; [lra|]. nra. }
  rewrite Rmax_left; lra.
Qed.
Lemma ratio_up I0 : i0_like I0 -> cosh2 k0 / I0 k0 < cosh2 k1 / I0 k1.
Proof.
  intros H. pose proof k1_bounds as B. pose proof (H k0 ltac:(unfold k0; lra)) as [A _]. pose proof (H k1 ltac:(lra)) as [A0 A1].
  pose proof (cosh2_up k0 ltac:(unfold k0; lra)) as C0. pose proof (cosh2_lo k1 ltac:(lra)) as C1. unfold k0 in *.
  assert (Q : 39 / 10000000 <= k1 ^ 2 <= 53 / 10000000) by (replace (k1 ^ 2) with (k1 * k1) by ring; nra).
  assert (Q4 : k1 ^ 4 <= 1 / 10 ^ 10) by (replace (k1 ^ 4) with (k1 ^ 2 * k1 ^ 2) by ring; nra).
  assert (C2 : 2 + 99 / 100 * k1 ^ 2 <= cosh2 k1).
  { replace ((k1 * (1 - k1)) ^ 2) with (k1 ^ 2 * (1 - k1) ^ 2) in C1 by ring. assert (99 / 100 <= (1 - k1) ^ 2) by nra. nra. }
  assert (R0 : cosh2 (/ 1000) / I0 (/ 1000) <= 2 + 6 / 10000000).
  { apply le_divl; [lra|]. nra. }
  assert (R1 : 2 + 7 / 10000000 <= cosh2 k1 / I0 k1).
  { apply le_divr; [lra|]. nra. }
  lra.
Qed.

(** * One pass from the labels 0, 1 *)
Lemma dir_zero mu : 0 <= mu < 2 * PI -> cos mu = 1 -> mu = 0.
Proof.
  intros H C. pose proof PI_RGT_0. pose proof (sin2_cos2 mu) as S2. unfold Rsqr in S2. rewrite C in S2. assert (sin mu = 0) by nra.
  destruct (Req_dec mu 0) as [|N]; auto. exfalso.
  destruct (Rlt_le_dec mu PI) as [L|L]; [pose proof (sin_gt_0 mu ltac:(lra) L); lra|].
  destruct (Req_dec mu PI) as [->|N2]; [rewrite cos_PI in C; lra|]. pose proof (sin_lt_0 mu ltac:(lra) ltac:(lra)). lra.
Qed.
Lemma dir_pi mu : 0 <= mu < 2 * PI -> cos mu = -1 -> mu = PI.
Proof.
  intros H C. pose proof PI_RGT_0. pose proof (sin2_cos2 mu) as S2. unfold Rsqr in S2. rewrite C in S2. assert (sin mu = 0) by nra.
  destruct (Req_dec mu 0) as [->|N]; [rewrite cos_0 in C; lra|].
  destruct (Rlt_le_dec mu PI) as [L|L]; [pose proof (sin_gt_0 mu ltac:(lra) L); lra|].
  destruct (Req_dec mu PI) as [->|N2]; auto. pose proof (sin_lt_0 mu ltac:(lra) ltac:(lra)). lra.
Qed.
Lemma refit_zero alpha w old new t : Rsum w = 1 -> wsum cos alpha w = t -> wsum sin alpha w = 0 -> / 10 ^ 12 < t ->
  vm_refit kappa0 alpha w old new -> new = (Fin 0, Fin (Rmax (kappa0 t) (/ 1000))).
Proof.
  intros W C S T H. unfold vm_refit in H. rewrite W, C, S in H. destruct H as [[Z _]|(_ & r & R0 & R2 & K & D)]; [exfalso; lra|].
  assert (r = t) by nra. subst r. destruct D as [[Z _]|(_ & mu & E & B & Cm & _)]; [lra|]. assert (mu = 0) by (apply dir_zero; auto; nra).
  subst mu. destruct new as [a b]. cbn [fst snd] in *. congruence.
Qed.
Lemma refit_pi alpha w old new t : Rsum w = 1 -> wsum cos alpha w = - t -> wsum sin alpha w = 0 -> / 10 ^ 12 < t ->
  vm_refit kappa0 alpha w old new -> new = (Fin PI, Fin (Rmax (kappa0 t) (/ 1000))).
Proof.
  intros W C S T H. unfold vm_refit in H. rewrite W, C, S in H. destruct H as [[Z _]|(_ & r & R0 & R2 & K & D)]; [exfalso; lra|].
  assert (r = t) by nra. subst r. destruct D as [[Z _]|(_ & mu & E & B & Cm & _)]; [lra|]. assert (mu = PI) by (apply dir_pi; auto; nra).
  subst mu. destruct new as [a b]. cbn [fst snd] in *. congruence.
Qed.
Definition w0 : R := / 2 + / 10 ^ 32.
Definition pair_at (k : R) : list (R * R) := [(0, k); (PI, k)].
Definition vmd (I0 : R -> R) (c : R * R) (x : R) : R := vm_density I0 (fst c) (snd c) x.
Lemma terms_0 I0 k : terms (vmd I0) [w0; w0] (pair_at k) 0 = [w0 * (exp k / (2 * PI * I0 k)); w0 * (exp (- k) / (2 * PI * I0 k))].
Proof.
  unfold terms, pair_at, vmd, vm_density. cbn [combine map fst snd]. rewrite Rminus_0_r, cos_0, Rminus_0_l, cos_neg, cos_PI.
  replace (k * 1) with k by ring. replace (k * -1) with (- k) by ring. reflexivity.
Qed.
Lemma terms_pi I0 k : terms (vmd I0) [w0; w0] (pair_at k) PI = [w0 * (exp (- k) / (2 * PI * I0 k)); w0 * (exp k / (2 * PI * I0 k))].
Proof.
  unfold terms, pair_at, vmd, vm_density. cbn [combine map fst snd]. rewrite Rminus_0_r, cos_PI. replace (PI - PI) with 0 by ring. rewrite cos_0.
  replace (k * 1) with k by ring. replace (k * -1) with (- k) by ring. reflexivity.
Qed.
Lemma nll_pair I0 k : neg_loglik (vmd I0) [w0; w0] (pair_at k) [0; PI] = - 2 * ln (w0 / (2 * PI) * (cosh2 k / I0 k)).
Proof.
  unfold neg_loglik. cbn [map]. rewrite terms_0, terms_pi. unfold Rdiv at 1 2 3 4. rewrite !Rsum_cons, !Rsum_nil. unfold cosh2, Rdiv.
  rewrite !Rinv_mult.
  match goal with |- - (ln ?a + (ln ?b + 0)) = - 2 * ln ?c => replace a with c by ring; replace b with c by ring end. ring.
Qed.
Lemma post_pair I0 G : (forall x, 0 < I0 x) -> posterior (vmd I0) [w0; w0] (pair_at k0) [0; PI] G ->
  exists a b, G = [[a; b]; [b; a]] /\ a + b = 1 /\ a - b = t0.
Proof.
  intros HI H. unfold posterior in H. inversion H as [|x0 g0 ? ? H0 H1]; subst. inversion H1 as [|x1 g1 ? ? H2 H3]; subst. inversion H3; subst.
  rewrite terms_0 in H0. rewrite terms_pi in H2.
  inversion H0 as [|? a ? ? A A']; subst. inversion A' as [|? b ? ? B B']; subst. inversion B'; subst.
  inversion H2 as [|? c ? ? C C']; subst. inversion C' as [|? d ? ? D D']; subst. inversion D'; subst.
  rewrite !Rsum_cons, !Rsum_nil in *. exists a, b.
  pose proof (exp_pos k0). pose proof (exp_pos (- k0)). pose proof (HI k0). pose proof PI_RGT_0. set (q := 2 * PI * I0 k0) in *. assert (Hq : 0 < q) by (unfold q; apply Rmult_lt_0_compat; [lra|assumption]).
  assert (Hw : 0 < w0) by (unfold w0; lra).
  assert (N : w0 / q <> 0) by (apply Rgt_not_eq; unfold Rdiv; apply Rmult_lt_0_compat; [lra|now apply Rinv_0_lt_compat]).
  assert (HA : a * cosh2 k0 = exp k0) by (apply (Rmult_eq_reg_l (w0 / q)); auto; unfold cosh2; transitivity (a * (w0 * (exp k0 / q) + (w0 * (exp (- k0) / q) + 0))); [field; lra|rewrite A; field; lra]).
  assert (HB : b * cosh2 k0 = exp (- k0)) by (apply (Rmult_eq_reg_l (w0 / q)); auto; unfold cosh2; transitivity (b * (w0 * (exp k0 / q) + (w0 * (exp (- k0) / q) + 0))); [field; lra|rewrite B; field; lra]).
  assert (HC : c * cosh2 k0 = exp (- k0)) by (apply (Rmult_eq_reg_l (w0 / q)); auto; unfold cosh2; transitivity (c * (w0 * (exp (- k0) / q) + (w0 * (exp k0 / q) + 0))); [field; lra|rewrite C; field; lra]).
  assert (HD : d * cosh2 k0 = exp k0) by (apply (Rmult_eq_reg_l (w0 / q)); auto; unfold cosh2; transitivity (d * (w0 * (exp (- k0) / q) + (w0 * (exp k0 / q) + 0))); [field; lra|rewrite D; field; lra]).
  assert (Hc : 0 < cosh2 k0) by (unfold cosh2; lra).
  assert (c = b) by (apply (Rmult_eq_reg_r (cosh2 k0)); lra). assert (d = a) by (apply (Rmult_eq_reg_r (cosh2 k0)); lra). subst c d.
  split; [reflexivity|]. split.
  - apply (Rmult_eq_reg_r (cosh2 k0)); [|lra]. rewrite Rmult_plus_distr_r, HA, HB. unfold cosh2. ring.
  - apply (Rmult_eq_reg_r (cosh2 k0)); [|lra]. unfold t0. replace ((exp k0 - exp (- k0)) / cosh2 k0 * cosh2 k0) with (exp k0 - exp (- k0)) by (field; lra). lra.
Qed.
Lemma movm_last_nll I0 : (forall x, 0 < I0 x) -> i0_like I0 -> exists m v w,
  movm_fit I0 cfg2 (false, None) [[0; 1]%nat] [0; PI] = Ok m /\ mx_nll m = [Fin v] /\
  movm_bic I0 2 (Some m) = Ok (Fin (bic_value w 2 5)) /\ w < v.
Proof.
  intros HI HB. destruct (movm_fit_total I0 cfg2 (false, None) [[0; 1]%nat] [0; PI]) as [m E]; [cbn; lia|discriminate|exists [0; 1]%nat; split; [now left|reflexivity]|].
  assert (CL : Forall (fun l => length l = length [0; PI]) [[0; 1]%nat]) by (repeat constructor).
  destruct (movm_fit_eq I0 cfg2 (false, None) [[0; 1]%nat] [0; PI] m HI cfg2_ok CL E) as (labels & start & Hl & (_ & B1 & B2 & B3) & (hist & cv & Ps & (SL & _ & SC) & En & _) & _).
  destruct Hl as [<-|[]]. cbn [cfg2 c_K c_burnin c_iters c_radian c_cycle c_threshold in_radians] in *.
  assert (LH : length hist = 1%nat).
  { destruct cv as [k|]; [destruct SC as (? & ? & ?); lia|destruct SC; auto]. }
  destruct hist as [|v [|]]; try discriminate LH. clear LH SL SC. inversion Ps as [|? ? s1 ? ? P1 P2]; subst. inversion P2; subst. clear Ps P2.
  destruct start as [p0 cs0]. cbn [fst snd] in *. destruct cs0 as [|c0 [|c1 [|]]]; try discriminate B2. subst p0.
  assert (Ec0 : c0 = (Fin 0, Fin k0)).
  { pose proof (refit_zero [0] [1] c0 c0 1 ltac:(cbn; ring) ltac:(unfold wsum, map2; cbn; rewrite cos_0; ring) ltac:(unfold wsum, map2; cbn; rewrite sin_0; ring) ltac:(lra) (B3 0%nat c0 eq_refl)) as Z.
    rewrite Z. unfold k0. now rewrite kappa0_1. }
  assert (Ec1 : c1 = (Fin PI, Fin k0)).
  { pose proof (refit_pi [PI] [1] c1 c1 1 ltac:(cbn; ring) ltac:(unfold wsum, map2; cbn; rewrite cos_PI; ring) ltac:(unfold wsum, map2; cbn; rewrite sin_PI; ring) ltac:(lra) (B3 1%nat c1 eq_refl)) as Z.
    rewrite Z. unfold k0. now rewrite kappa0_1. }
  subst c0 c1. clear B2 B3.
  destruct P1 as [(ps & cs & qs & G & Es & HP & Eq & NW & _ & _ & LC & RF & Ev)|([Z|(c & Z & Z')] & _)].
  2: { cbn in Z. destruct Z as [Z|[Z|[]]]; discriminate. }
  2: { cbn in Z. destruct Z as [<-|[<-|[]]]; discriminate. }
  cbn [fst snd] in *. injection Es as Ep Ecs.
  assert (ps = [1 / 2; 1 / 2]).
  { destruct ps as [|a [|b [|]]]; try discriminate. cbn in Ep. injection Ep as Ea Eb. subst a b. reflexivity. }
  assert (cs = pair_at k0).
  { destruct cs as [|[a b] [|[c d] [|]]]; try discriminate. cbn in Ecs. injection Ecs as Q1 Q2 Q3 Q4. rewrite <- Q1, <- Q2, <- Q3, <- Q4. reflexivity. }
  subst ps cs.
  assert (Ew : map (fun p => p + / 10 ^ 32) [1 / 2; 1 / 2] = [w0; w0]) by (cbn [map]; unfold w0; f_equal; [lra|f_equal; lra]).
  cbv zeta in HP, Ev. rewrite Ew in HP, Ev. change (fun (c : R * R) x => vm_density I0 (fst c) (snd c) x) with (vmd I0) in HP, Ev.
  destruct (post_pair I0 G HI HP) as (a & b & -> & Sab & Dab). pose proof t0_bounds as T0.
  destruct (mx_cs m) as [|d0 [|d1 [|]]] eqn:Ecm; try discriminate LC. cbn [map] in *.
  assert (Ed0 : pars d0 = (Fin 0, Fin k1)).
  { eapply (refit_zero [0; PI] [a; b]); [cbn; lra| | | |apply (RF 0%nat _ _ eq_refl eq_refl)]; unfold wsum, map2; cbn; rewrite ?cos_0, ?cos_PI, ?sin_0, ?sin_PI; lra. }
  assert (Ed1 : pars d1 = (Fin PI, Fin k1)).
  { eapply (refit_pi [0; PI] [b; a]); [cbn; lra| | | |apply (RF 1%nat _ _ eq_refl eq_refl)]; unfold wsum, map2; cbn; rewrite ?cos_0, ?cos_PI, ?sin_0, ?sin_PI; lra. }
  assert (Eqs : mx_p m = map Fin [1 / 2; 1 / 2]).
  { destruct (movm_fit_eq I0 cfg2 (false, None) [[0; 1]%nat] [0; PI] m HI cfg2_ok CL E) as (_ & _ & _ & _ & _ & (Lp & _) & _). cbn [fst snd c_K cfg2] in Lp.
    rewrite Eq, map_length in Lp. destruct qs as [|q0 [|q1 [|]]]; try discriminate Lp. rewrite Eq.
    pose proof (NW 0%nat q0 eq_refl) as N0. pose proof (NW 1%nat q1 eq_refl) as N1. cbn in N0, N1. f_equal. f_equal; [lra|f_equal; lra]. }
  pose proof (movm_bic_spec I0 cfg2 (false, None) [[0; 1]%nat] [0; PI] m HI cfg2_ok CL E [1 / 2; 1 / 2] (pair_at k1) Eqs) as BIC.
  rewrite Ecm in BIC. cbn [map pair_at fst snd] in BIC. rewrite Ed0, Ed1 in BIC. specialize (BIC eq_refl).
  change (fun (c : R * R) x => vm_density I0 (fst c) (snd c) x) with (vmd I0) in BIC. cbn [cfg2 c_K c_radian c_cycle in_radians] in BIC.
  rewrite Ew in BIC. fold (pair_at k1) in BIC.
  exists m. eexists. eexists. split; [exact E|]. split; [rewrite En, Ev; reflexivity|]. split; [exact BIC|].
  rewrite !nll_pair. pose proof (ratio_up I0 HB) as Hr. pose proof PI_RGT_0. assert (Hw : 0 < w0) by (unfold w0; lra).
  assert (0 < w0 / (2 * PI)) by (unfold Rdiv; apply Rmult_lt_0_compat; [lra|apply Rinv_0_lt_compat; lra]).
  assert (0 < cosh2 k0 / I0 k0) by (unfold Rdiv; apply Rmult_lt_0_compat; [unfold cosh2; pose proof (exp_pos k0); pose proof (exp_pos (- k0)); lra|now apply Rinv_0_lt_compat]).
  assert (ln (w0 / (2 * PI) * (cosh2 k0 / I0 k0)) < ln (w0 / (2 * PI) * (cosh2 k1 / I0 k1))); [|lra].
  apply ln_increasing; [now apply Rmult_lt_0_compat|now apply Rmult_lt_compat_l].
Qed.
