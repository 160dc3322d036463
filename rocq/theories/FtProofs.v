(** The trapezoidal rule on the table, and the flat-topped density. *)
From Verif Require Import Prelude NpModel NpProofs CircleSpec IntSpec IntProofs DistModel DistSpec DistProofs Dist2Proofs Dist4Proofs Dist5Proofs
  Dist6Proofs Dist7Proofs KjProofs Kj2Proofs Von3Proofs Von4Proofs JpProofs Jp3Proofs Wn6Proofs FtModel FtSpec.

(** ** Sizes *)
Lemma ft_size_range kappa nu : (512 <= ft_size kappa nu <= Z.to_nat 8192)%nat.
Proof.
  unfold ft_size. cbv zeta. generalize (Nat.pow 2 (ceil_log2 (clip (64 + 12 * ((1 + Rabs nu) * sqrt (Rmax kappa 0 + 1))) 512 8192))).
  intros n. assert (E : Z.to_nat 512 = 512%nat) by reflexivity. rewrite E.
  assert (512 <= Z.to_nat 8192)%nat by (apply Nat2Z.inj_le; rewrite Z2Nat.id by lia; cbn; lia). lia.
Qed.
Lemma ft_size_INR kappa nu : 512 <= INR (ft_size kappa nu).
Proof. destruct (ft_size_range kappa nu) as [H _]. apply le_INR in H. replace (INR 512) with 512 in H by (rewrite INR_IZR_INZ; reflexivity). exact H. Qed.

(** ** Sums over the nodes *)
Lemma sum_S (g : nat -> R) n : Rsum (map g (seq 0 (S n))) = Rsum (map g (seq 0 n)) + g n.
Proof. rewrite seq_S, map_app, Rsum_app. cbn [map]. change (Rsum [?a]) with (a + 0). rewrite Nat.add_0_l. ring. Qed.
Lemma sum_nonneg (g : nat -> R) n : (forall i, 0 <= g i) -> 0 <= Rsum (map g (seq 0 n)).
Proof. intros H. induction n as [|n IH]; [cbn; lra|]. rewrite sum_S. pose proof (H n). lra. Qed.
Lemma trap_sum (p : nat -> R) : forall N, (0 < N)%nat ->
  Rsum (map (fun i => (if Nat.eqb i 0 || Nat.eqb i N then 1 / 2 else 1) * p i) (seq 0 (S N))) = Rsum (map (fun j => 1 / 2 * (p j + p (S j))) (seq 0 N)).
Proof.
  intros N HN. rewrite sum_S. rewrite Nat.eqb_refl, Bool.orb_true_r.
  assert (G : forall M, (M < N)%nat -> Rsum (map (fun i => (if Nat.eqb i 0 || Nat.eqb i N then 1 / 2 else 1) * p i) (seq 0 (S M))) =
     Rsum (map (fun j => 1 / 2 * (p j + p (S j))) (seq 0 M)) + 1 / 2 * p M).
  { induction M as [|M IH]; intros HM.
    - cbn [seq map]. cbn [Nat.eqb orb]. rewrite Rsum_cons, Rsum_nil. ring.
    - rewrite sum_S, IH by lia. rewrite sum_S. rewrite (proj2 (Nat.eqb_neq (S M) 0)) by lia. rewrite (proj2 (Nat.eqb_neq (S M) N)) by lia. cbn [orb]. field. }
  destruct N as [|M]; [lia|]. rewrite (G M) by lia. rewrite sum_S. field.
Qed.
Lemma trap_cum_S N p i : trap_cum N p (S i) = trap_cum N p i + 1 / 2 * (p i + p (S i)) * (2 * PI / INR N).
Proof. unfold trap_cum. rewrite sum_S. ring. Qed.
Lemma trap_cum_0 N p : trap_cum N p 0 = 0. Proof. unfold trap_cum. cbn. ring. Qed.
Lemma step_pos N : (0 < N)%nat -> 0 < 2 * PI / INR N.
Proof. intros H. pose proof PI_gt3. apply lt_0_INR in H. apply Rdiv_lt_0_compat; lra. Qed.
Lemma trap_cum_scal N c p i : trap_cum N (fun j => c * p j) i = c * trap_cum N p i.
Proof. induction i as [|i IH]; [rewrite !trap_cum_0; ring|]. rewrite !trap_cum_S, IH. ring. Qed.
Lemma trap_cum_ext N p q i : (forall j, (j <= i)%nat -> p j = q j) -> trap_cum N p i = trap_cum N q i.
Proof.
  induction i as [|i IH]; intros H; [rewrite !trap_cum_0; reflexivity|]. rewrite !trap_cum_S, IH by (intros; apply H; lia).
  rewrite (H i), (H (S i)) by lia. reflexivity.
Qed.
Lemma trap_cum_mono N p i j : (0 < N)%nat -> (forall k, 0 <= p k) -> (i <= j)%nat -> trap_cum N p i <= trap_cum N p j.
Proof.
  intros HN H L. induction L as [|j L IH]; [lra|]. rewrite trap_cum_S. pose proof (step_pos N HN). pose proof (H j). pose proof (H (S j)).
  assert (0 <= 1 / 2 * (p j + p (S j)) * (2 * PI / INR N)) by (apply Rmult_le_pos; lra). lra.
Qed.
Lemma trap_cum_strict N p i j : (0 < N)%nat -> (forall k, 0 < p k) -> (i < j)%nat -> trap_cum N p i < trap_cum N p j.
Proof.
  intros HN H L. pose proof (trap_cum_mono N p (S i) j HN (fun k => Rlt_le _ _ (H k)) L). rewrite trap_cum_S in H0.
  pose proof (step_pos N HN). pose proof (H i). pose proof (H (S i)).
  assert (0 < 1 / 2 * (p i + p (S i)) * (2 * PI / INR N)) by (apply Rmult_lt_0_compat; lra). lra.
Qed.
Lemma exp_log_trap N lk : (0 < N)%nat -> exp (log_trap N lk) = trap_cum N (fun i => exp (lk (node N i))) N.
Proof.
  intros HN. unfold log_trap. cbv zeta. set (m := node_max N (fun i => lk (node N i))).
  rewrite (trap_sum (fun i => exp (lk (node N i) - m)) N HN).
  assert (E : Rsum (map (fun j => 1 / 2 * (exp (lk (node N j) - m) + exp (lk (node N (S j)) - m))) (seq 0 N)) = exp (- m) * Rsum (map (fun j => 1 / 2 * (exp (lk (node N j)) + exp (lk (node N (S j))))) (seq 0 N))).
  { rewrite <- Rsum_scal_map. apply Rsum_ext_map. intros j _. unfold Rminus. rewrite !exp_plus. ring. }
  rewrite E. clear E. set (S0 := Rsum _). pose proof (step_pos N HN) as SP.
  assert (P : 0 < S0).
  { pose proof (trap_cum_strict N (fun i => exp (lk (node N i))) 0 N HN (fun k => exp_pos _) HN) as Q. rewrite trap_cum_0 in Q. unfold trap_cum in Q. fold S0 in Q.
    apply Rmult_lt_reg_r with (2 * PI / INR N); lra. }
  rewrite !exp_plus, !exp_ln; [|apply Rmult_lt_0_compat; [apply exp_pos|exact P]|exact SP].
  unfold trap_cum. fold S0. pose proof (exp_pos m). rewrite exp_Ropp. field. apply lt_0_INR in HN. split; lra.
Qed.

(** ** The trapezoidal rule *)
Lemma cell_trap f f' a b L v : a <= b -> (forall x, derivable_pt_lim f x (f' x)) -> (forall x, continuity_pt f' x) ->
  (forall x, Rabs (f' x) <= L * f x) -> integral f a b v ->
  (1 - (b - a) / 2 * L) * v <= 1 / 2 * (f a + f b) * (b - a) <= (1 + (b - a) / 2 * L) * v.
Proof.
  intros ab D C B I. set (m := (a + b) / 2).
  assert (Cf : forall x, continuity_pt f x) by (intros x; exact (dlim_cont _ _ _ (D x))).
  assert (Dg : forall x, derivable_pt_lim (fun t => (t - m) * f t) x (f x + (x - m) * f' x)).
  { intros x. apply (dlim_eq _ _ ((1 - 0) * f x + (x - m) * f' x)); [ring|]. refine (dlim_mult (fun t => t - m) f x _ _ _ (D x)).
    apply (dlim_minus (fun t => t) (fun _ => m)); [apply dlim_id|apply dlim_const]. }
  assert (I2 : integral (fun x => f x + (x - m) * f' x) a b ((b - m) * f b - (a - m) * f a)).
  { refine (ftc (fun x => f x + (x - m) * f' x) (fun t => (t - m) * f t) a b ab _ _); intros x _; [|apply Dg].
    apply cont_plus; [apply Cf|]. apply cont_mult; [|apply C]. apply derivable_continuous_pt. reg. }
  replace ((b - m) * f b - (a - m) * f a) with (1 / 2 * (f a + f b) * (b - a)) in I2 by (unfold m; field).
  pose proof (integral_scal f a b (1 - (b - a) / 2 * L) v ab I) as I3.
  pose proof (integral_scal f a b (1 + (b - a) / 2 * L) v ab I) as I4.
  assert (Q : forall x, a <= x <= b -> Rabs ((x - m) * f' x) <= (b - a) / 2 * L * f x).
  { intros x Hx. rewrite Rabs_mult, (Rmult_assoc _ L). apply Rmult_le_compat; [apply Rabs_pos|apply Rabs_pos| |apply B].
    apply Rabs_le. unfold m. lra. }
  split.
  - refine (integral_le _ _ a b _ _ ab _ I3 I2). intros x Hx. pose proof (Q x Hx) as Q1. apply abs_le_inv in Q1. lra.
  - refine (integral_le _ _ a b _ _ ab _ I2 I4). intros x Hx. pose proof (Q x Hx) as Q1. apply abs_le_inv in Q1. lra.
Qed.
Lemma node_S N i : node N (S i) = node N i + 2 * PI / INR N.
Proof. unfold node. rewrite S_INR. ring. Qed.
Lemma node_0 N : node N 0 = - PI. Proof. unfold node. cbn [INR]. ring. Qed.
Lemma node_N N : (0 < N)%nat -> node N N = PI. Proof. intros H. unfold node. apply lt_0_INR in H. field. lra. Qed.
Lemma node_lt N i j : (0 < N)%nat -> (i < j)%nat -> node N i < node N j.
Proof. intros HN H. pose proof (step_pos N HN). apply lt_INR in H. unfold node. nra. Qed.
Lemma node_le N i j : (0 < N)%nat -> (i <= j)%nat -> node N i <= node N j.
Proof. intros HN H. destruct (Nat.eq_dec i j) as [->|]; [lra|]. pose proof (node_lt N i j HN ltac:(lia)). lra. Qed.
Lemma trap_error f f' L N : (0 < N)%nat -> (forall x, derivable_pt_lim f x (f' x)) -> (forall x, continuity_pt f' x) ->
  (forall x, Rabs (f' x) <= L * f x) -> forall i v, integral f (- PI) (node N i) v ->
  (1 - PI * L / INR N) * v <= trap_cum N (fun j => f (node N j)) i <= (1 + PI * L / INR N) * v.
Proof.
  intros HN D C B. pose proof (step_pos N HN) as SP. pose proof (lt_0_INR _ HN) as HN'.
  assert (Cf : forall x, continuity_pt f x) by (intros x; exact (dlim_cont _ _ _ (D x))).
  induction i as [|i IH]; intros v I.
  - rewrite node_0 in I. pose proof (integral_scal f (- PI) (- PI) 0 v ltac:(lra) I) as Z. rewrite trap_cum_0.
    assert (v = 0). { destruct I as [pr <-]. apply RiemannInt_P9. } subst v. lra.
  - destruct (continuous_integral f (- PI) (node N i)) as [v1 I1]; [rewrite <- (node_0 N); apply node_le; lia|intros; apply Cf|].
    destruct (continuous_integral f (node N i) (node N (S i))) as [v2 I2]; [apply node_le; lia|intros; apply Cf|].
    pose proof (integral_unique _ _ _ _ _ I (integral_split _ _ _ _ _ _ I1 I2)) as ->. specialize (IH v1 I1).
    pose proof (cell_trap f f' (node N i) (node N (S i)) L v2 ltac:(apply node_le; lia) D C B I2) as T.
    rewrite trap_cum_S. replace (node N (S i) - node N i) with (2 * PI / INR N) in T by (rewrite node_S; ring).
    replace (2 * PI / INR N / 2 * L) with (PI * L / INR N) in T by (field; lra). lra.
Qed.

(** ** The shape *)
Lemma ft_log_cont kappa nu x : continuity_pt (ft_log kappa nu) x.
Proof. unfold ft_log. apply derivable_continuous_pt. reg. Qed.
Lemma ft_log_d kappa nu x : derivable_pt_lim (ft_log kappa nu) x (kappa * (- sin (x + nu * sin x) * (1 + nu * cos x))).
Proof.
  unfold ft_log. apply dlim_scal. apply (dlim_eq _ _ (- ((1 + nu * (cos x * 1)) * sin (x + nu * sin x)))); [ring|].
  apply (dlim_eq _ _ (- sin (x + nu * sin x) * (1 + nu * (cos x * 1)))); [ring|].
  refine (dlim_eq _ _ _ _ _ (dlim_cos _ x (1 + nu * (cos x * 1)) _)); [ring|].
  apply (dlim_plus (fun y => y) (fun y => nu * sin y)); [apply dlim_id|]. apply dlim_scal.
  refine (dlim_eq _ _ _ _ _ (dlim_sin (fun y => y) x 1 (dlim_id x))). ring.
Qed.
Lemma ft_log_bound kappa nu x : 0 <= kappa -> Rabs (ft_log kappa nu x) <= kappa.
Proof. intros H. unfold ft_log. rewrite Rabs_mult, Rabs_pos_eq by exact H. pose proof (COS_bound (x + nu * sin x)). assert (Rabs (cos (x + nu * sin x)) <= 1) by (apply Rabs_le; lra). nra. Qed.
Lemma ft_log_turns kappa nu x (z : Z) : ft_log kappa nu (x + 2 * PI * IZR z) = ft_log kappa nu x.
Proof.
  unfold ft_log. f_equal. rewrite NpProofs.sin_turns. replace (x + 2 * PI * IZR z + nu * sin x) with (x + nu * sin x + 2 * PI * IZR z) by ring. apply NpProofs.cos_turns.
Qed.
Lemma ft_log_even kappa nu x : ft_log kappa nu (- x) = ft_log kappa nu x.
Proof. unfold ft_log. f_equal. rewrite sin_neg. replace (- x + nu * - sin x) with (- (x + nu * sin x)) by ring. apply cos_neg. Qed.
Definition ft_shape (kappa nu x : R) : R := exp (ft_log kappa nu x).
Lemma ft_shape_d kappa nu x : derivable_pt_lim (ft_shape kappa nu) x (kappa * (- sin (x + nu * sin x) * (1 + nu * cos x)) * ft_shape kappa nu x).
Proof.
  unfold ft_shape. refine (dlim_eq _ _ _ _ _ (dlim_exp (ft_log kappa nu) x _ (ft_log_d kappa nu x))). ring.
Qed.
Lemma ft_shape_cont kappa nu x : continuity_pt (ft_shape kappa nu) x.
Proof. exact (dlim_cont _ _ _ (ft_shape_d kappa nu x)). Qed.
Lemma ft_shape_d_bound kappa nu x : 0 <= kappa -> Rabs (kappa * (- sin (x + nu * sin x) * (1 + nu * cos x)) * ft_shape kappa nu x) <= kappa * (1 + Rabs nu) * ft_shape kappa nu x.
Proof.
  intros H. rewrite Rabs_mult, (Rabs_pos_eq (ft_shape kappa nu x)) by (left; apply exp_pos). apply Rmult_le_compat_r; [left; apply exp_pos|].
  rewrite Rabs_mult, (Rabs_pos_eq kappa) by exact H. apply Rmult_le_compat_l; [exact H|]. rewrite Rabs_mult, Rabs_Ropp.
  pose proof (SIN_bound (x + nu * sin x)). pose proof (COS_bound x). assert (Rabs (sin (x + nu * sin x)) <= 1) by (apply Rabs_le; lra).
  assert (Rabs (1 + nu * cos x) <= 1 + Rabs nu).
  { eapply Rle_trans; [apply Rabs_triang|]. rewrite Rabs_R1, Rabs_mult. assert (Rabs (cos x) <= 1) by (apply Rabs_le; lra). pose proof (Rabs_pos nu). nra. }
  pose proof (Rabs_pos (sin (x + nu * sin x))). pose proof (Rabs_pos (1 + nu * cos x)). nra.
Qed.
Definition ft_T (kappa nu : R) : R := trap_cum (ft_size kappa nu) (fun j => ft_shape kappa nu (node (ft_size kappa nu) j)) (ft_size kappa nu).
Lemma ft_norm_T kappa nu : exp (ft_lognorm kappa nu) = / ft_T kappa nu.
Proof.
  unfold ft_lognorm, ft_T. rewrite exp_Ropp, exp_log_trap; [reflexivity|]. pose proof (ft_size_range kappa nu). lia.
Qed.
Lemma ft_T_pos kappa nu : 0 < ft_T kappa nu.
Proof. pose proof (exp_pos (ft_lognorm kappa nu)) as H. rewrite ft_norm_T in H. rewrite <- (Rinv_inv (ft_T kappa nu)). apply Rinv_0_lt_compat, H. Qed.
Lemma centre_turns t : exists z : Z, pymod (t + PI) (2 * PI) - PI = t + 2 * PI * IZR z.
Proof. unfold pymod. exists (- Rfloor ((t + PI) / (2 * PI)))%Z. rewrite opp_IZR. ring. Qed.
Lemma centre_range t : - PI <= pymod (t + PI) (2 * PI) - PI < PI.
Proof. pose proof PI_gt3. pose proof (pymod_range (t + PI) (2 * PI) ltac:(lra)). lra. Qed.
Lemma ft_ok_spec mu kappa nu : ft_ok mu kappa nu = true <-> 0 <= mu <= 2 * PI /\ 0 <= kappa <= 1000 /\ -1 <= nu <= 1.
Proof.
  unfold ft_ok, ft_kmax. rewrite !Bool.andb_true_iff, !Rleb_true. tauto.
Qed.
Lemma clip_id x lo hi : lo <= x <= hi -> clip x lo hi = x.
Proof. intros H. unfold clip. rewrite Rmax_left, Rmin_left by lra. reflexivity. Qed.
Lemma ft_pdf_eq mu kappa nu x : 0 <= kappa <= 1000 ->
  ft_pdf mu kappa nu x = if Rleb kappa ft_ktol then 1 / (2 * PI) else ft_shape kappa nu (x - mu) / ft_T kappa nu.
Proof.
  intros H. unfold ft_pdf. unfold ft_kmax. rewrite (clip_id kappa) by lra. cbv zeta. destruct (Rleb kappa ft_ktol); [reflexivity|].
  destruct (centre_turns (x - mu)) as [z E]. rewrite E, ft_log_turns, exp_plus, ft_norm_T. reflexivity.
Qed.
