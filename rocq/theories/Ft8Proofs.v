(** The rejection sampler. *)
From Verif Require Import Prelude NpModel NpProofs CircleSpec IntSpec IntProofs DistModel DistSpec DistProofs Dist2Proofs Dist4Proofs Dist5Proofs
  Dist6Proofs Dist7Proofs KjProofs Kj2Proofs VonModel VonSpec Von3Proofs Von4Proofs JpProofs Jp3Proofs Wn3Proofs Wn6Proofs Ws3Proofs GaussProofs Von6Proofs Jp5Proofs
  FtModel FtSpec FtProofs Ft2Proofs Ft3Proofs Ft4Proofs Ft5Proofs Ft6Proofs Ft7Proofs.

(** ** Trigonometry *)
Lemma mono0 F f a b : a <= b -> (forall x, a <= x <= b -> derivable_pt_lim F x (f x)) -> (forall x, a <= x <= b -> 0 <= f x) -> F a <= F b.
Proof. intros ab D P. exact (mono_of_dlim F f a b D P a b ltac:(lra) ab ltac:(lra)). Qed.
Lemma x_cos_x x : 0 <= x <= PI -> x * cos x <= sin x.
Proof.
  intros Hx. assert (0 <= sin x - x * cos x); [|lra].
  replace 0 with (sin 0 - 0 * cos 0) by (rewrite sin_0; ring).
  apply (mono0 (fun t => sin t - t * cos t) (fun t => t * sin t)); [lra| |].
  - intros t Ht. apply (dlim_eq _ _ (cos t * 1 - (1 * cos t + t * (- sin t * 1)))); [ring|].
    apply (dlim_minus (fun t => sin t) (fun t => t * cos t)); [apply (dlim_sin (fun t => t)), dlim_id|].
    apply (dlim_mult (fun t => t) (fun t => cos t)); [apply dlim_id|apply (dlim_cos (fun t => t)), dlim_id].
  - intros t Ht. apply Rmult_le_pos; [lra|apply sin_ge_0; lra].
Qed.
(** The ratio sin(phi + nu sin phi) / sin phi falls. *)
Lemma ratio_slope nu x : 0 <= nu <= 1 -> 0 <= x <= PI -> cos (x + nu * sin x) * (1 + nu * cos x) * sin x - sin (x + nu * sin x) * cos x <= 0.
Proof.
  intros Hn Hx. pose proof PI_gt3. pose proof (SIN_bound x) as SB. pose proof (sin_ge_0 x ltac:(lra) ltac:(lra)) as S0.
  set (d := nu * sin x). assert (D : 0 <= d <= 1) by (unfold d; nra).
  assert (E : cos (x + d) * (1 + nu * cos x) * sin x - sin (x + d) * cos x = - sin d + d * (cos (x + d) * cos x)).
  { replace (sin d) with (sin (x + d - x)) by (f_equal; ring). rewrite (sin_minus (x + d) x).
    replace (cos (x + d) * (1 + nu * cos x) * sin x) with (cos (x + d) * sin x + cos (x + d) * cos x * (nu * sin x)) by ring. fold d. ring. }
  rewrite E. assert (C : cos (x + d) * cos x <= cos (d / 2) * cos (d / 2)).
  { assert (E1 : cos (x + d) * cos x = 1 / 2 * (cos (2 * x + d) + cos d)).
    { replace (2 * x + d) with ((x + d) + x) by ring. replace (cos d) with (cos ((x + d) - x)) by (f_equal; ring). rewrite (cos_plus (x + d) x), (cos_minus (x + d) x). field. }
    assert (E2 : cos d = 2 * cos (d / 2) * cos (d / 2) - 1) by (replace d with (2 * (d / 2)) at 1 by field; apply cos_2a_cos).
    pose proof (COS_bound (2 * x + d)). lra. }
  assert (S : sin d = 2 * sin (d / 2) * cos (d / 2)) by (replace d with (2 * (d / 2)) at 1 by field; apply sin_2a).
  pose proof (x_cos_x (d / 2) ltac:(lra)) as X. assert (0 <= cos (d / 2)) by (apply cos_ge_0; lra). rewrite S.
  assert (d * (cos (x + d) * cos x) <= d * (cos (d / 2) * cos (d / 2))) by (apply Rmult_le_compat_l; lra).
  assert (d / 2 * cos (d / 2) * cos (d / 2) <= sin (d / 2) * cos (d / 2)) by (apply Rmult_le_compat_r; lra). lra.
Qed.
Lemma u_range nu x : 0 <= nu <= 1 -> 0 <= x <= PI -> 0 <= x + nu * sin x <= PI.
Proof.
  intros Hn Hx. pose proof (sin_ge_0 x ltac:(lra) ltac:(lra)) as S0. assert (sin x <= PI - x). { rewrite <- sin_PI_x. destruct (Req_dec (PI - x) 0) as [->|]; [rewrite sin_0; lra|]. left. apply sin_lt_x. lra. } nra.
Qed.
Lemma ratio_dec nu a b : 0 <= nu <= 1 -> 0 < a -> a <= b -> b < PI -> sin (b + nu * sin b) / sin b <= sin (a + nu * sin a) / sin a.
Proof.
  intros Hn Ha ab Hb. apply Ropp_le_cancel.
  refine (mono0 (fun x => - (sin (x + nu * sin x) / sin x)) (fun x => - ((cos (x + nu * sin x) * (1 + nu * cos x) * sin x - sin (x + nu * sin x) * cos x) / (sin x * sin x))) a b ab _ _).
  - intros x Hx. pose proof (sin_gt_0 x ltac:(lra) ltac:(lra)) as S0. apply (dlim_opp (fun x => sin (x + nu * sin x) / sin x)).
    refine (dlim_eq _ _ _ _ _ (dlim_div (fun x => sin (x + nu * sin x)) (fun x => sin x) x (cos (x + nu * sin x) * (1 + nu * (cos x * 1))) (cos x * 1) _ _ _)).
    + field. lra.
    + lra.
    + apply (dlim_sin (fun x => x + nu * sin x)). apply (dlim_plus (fun x => x) (fun x => nu * sin x)); [apply dlim_id|]. apply (dlim_scal nu (fun x => sin x)), (dlim_sin (fun x => x)), dlim_id.
    + apply (dlim_sin (fun x => x)), dlim_id.
  - intros x Hx. pose proof (sin_gt_0 x ltac:(lra) ltac:(lra)) as S0. pose proof (ratio_slope nu x Hn ltac:(lra)) as W.
    assert (0 < / (sin x * sin x)) by (apply Rinv_0_lt_compat; nra). unfold Rdiv. nra.
Qed.
(** The logarithm of target over envelope, up to a constant. *)
Definition gap (kappa nu k phi : R) : R := ft_log kappa nu phi - k * cos phi.
Definition gap' (kappa nu k phi : R) : R := k * sin phi - kappa * (sin (phi + nu * sin phi) * (1 + nu * cos phi)).
Lemma gap_d kappa nu k x : derivable_pt_lim (gap kappa nu k) x (gap' kappa nu k x).
Proof.
  unfold gap, gap'. apply (dlim_eq _ _ (kappa * (- sin (x + nu * sin x) * (1 + nu * cos x)) - k * (- sin x * 1))); [ring|].
  apply (dlim_minus (ft_log kappa nu) (fun t => k * cos t)); [apply ft_log_d|]. apply (dlim_scal k (fun t => cos t)), (dlim_cos (fun t => t)), dlim_id.
Qed.
Lemma gap_sign kappa nu k a b : 0 <= kappa -> 0 <= nu <= 1 -> 0 < a -> a <= b -> b <= PI -> 0 <= k -> 0 <= gap' kappa nu k a -> 0 <= gap' kappa nu k b.
Proof.
  intros Hk Hn Ha ab Hb k0 D. destruct (Req_dec b PI) as [->|Nb].
  { unfold gap'. rewrite sin_PI, (Rmult_0_r nu), Rplus_0_r, sin_PI. lra. }
  assert (b < PI) by lra. pose proof (sin_gt_0 a ltac:(lra) ltac:(lra)) as Sa. pose proof (sin_gt_0 b ltac:(lra) ltac:(lra)) as Sb.
  pose proof (ratio_dec nu a b Hn Ha ab H) as Rr. assert (Cc : cos b <= cos a) by (apply cos_decr_1; lra).
  pose proof (u_range nu a Hn ltac:(lra)). pose proof (u_range nu b Hn ltac:(lra)).
  assert (0 <= sin (b + nu * sin b)) by (apply sin_ge_0; lra). assert (0 <= sin (a + nu * sin a)) by (apply sin_ge_0; lra).
  unfold gap' in *. set (A := sin (a + nu * sin a)) in *. set (B := sin (b + nu * sin b)) in *.
  assert (Rb : 0 <= B / sin b) by (unfold Rdiv; apply Rmult_le_pos; [assumption|left; apply Rinv_0_lt_compat, Sb]).
  pose proof (COS_bound a). pose proof (COS_bound b). assert (0 <= 1 + nu * cos b) by nra. assert (1 + nu * cos b <= 1 + nu * cos a) by nra.
  assert (P : B / sin b * (1 + nu * cos b) <= A / sin a * (1 + nu * cos a)) by (apply Rmult_le_compat; assumption).
  assert (Da : 0 <= (k - kappa * (A / sin a * (1 + nu * cos a))) * sin a).
  { replace ((k - kappa * (A / sin a * (1 + nu * cos a))) * sin a) with (k * sin a - kappa * (A * (1 + nu * cos a))) by (field; lra). exact D. }
  assert (Da' : 0 <= k - kappa * (A / sin a * (1 + nu * cos a))). { apply Rmult_le_reg_r with (sin a); [exact Sa|]. rewrite Rmult_0_l. exact Da. }
  assert (kappa * (B / sin b * (1 + nu * cos b)) <= kappa * (A / sin a * (1 + nu * cos a))) by (apply Rmult_le_compat_l; assumption).
  replace (k * sin b - kappa * (B * (1 + nu * cos b))) with ((k - kappa * (B / sin b * (1 + nu * cos b))) * sin b) by (field; lra).
  apply Rmult_le_pos; lra.
Qed.
Lemma gap_pos_nu kappa nu k phi : 0 <= kappa -> 0 <= nu <= 1 -> 0 <= k -> 0 <= phi <= PI -> gap kappa nu k phi <= gap kappa nu k 0 \/ gap kappa nu k phi <= gap kappa nu k PI.
Proof.
  intros Hk Hn k0 Hp. destruct (Req_dec phi 0) as [->|Nz]; [left; lra|]. destruct (Rle_lt_dec 0 (gap' kappa nu k phi)) as [D|D].
  - right. apply (mono0 (gap kappa nu k) (gap' kappa nu k)); [lra|intros; apply gap_d|]. intros x Hx. apply (gap_sign kappa nu k phi x); lra.
  - left. apply Ropp_le_cancel. apply (mono0 (fun t => - gap kappa nu k t) (fun t => - gap' kappa nu k t)); [lra|intros; apply (dlim_opp (gap kappa nu k)), gap_d|].
    intros x Hx. destruct (Rle_lt_dec (gap' kappa nu k x) 0) as [L|L]; [lra|]. destruct (Req_dec x 0) as [->|Nx].
    + unfold gap' in L. rewrite sin_0, (Rmult_0_r nu), Rplus_0_r, sin_0 in L. lra.
    + pose proof (gap_sign kappa nu k x phi Hk Hn ltac:(lra) ltac:(lra) ltac:(lra) k0 ltac:(lra)). lra.
Qed.
Lemma sin_scale a x : 0 <= a <= 1 -> 0 <= x <= PI -> a * sin x <= sin (a * x).
Proof.
  intros Ha Hx. assert (0 <= sin (a * x) - a * sin x); [|lra]. replace 0 with (sin (a * 0) - a * sin 0) by (rewrite Rmult_0_r, sin_0; ring).
  apply (mono0 (fun t => sin (a * t) - a * sin t) (fun t => a * (cos (a * t) - cos t))); [lra| |].
  - intros t Ht. apply (dlim_eq _ _ (cos (a * t) * (a * 1) - a * (cos t * 1))); [ring|]. apply (dlim_minus (fun t => sin (a * t)) (fun t => a * sin t)).
    + apply (dlim_sin (fun t => a * t)), (dlim_scal a (fun t => t)), dlim_id.
    + apply (dlim_scal a (fun t => sin t)), (dlim_sin (fun t => t)), dlim_id.
  - intros t Ht. assert (a * t <= t) by nra. assert (0 <= a * t) by nra. assert (cos t <= cos (a * t)) by (apply cos_decr_1; lra). apply Rmult_le_pos; lra.
Qed.
Lemma gap_neg_nu kappa nu phi : 0 <= kappa -> - 1 <= nu <= 0 -> 0 <= phi <= PI -> gap kappa nu (kappa * (1 + nu) ^ 2) phi <= gap kappa nu (kappa * (1 + nu) ^ 2) 0.
Proof.
  intros Hk Hn Hp. pose proof PI_gt3. apply Ropp_le_cancel.
  apply (mono0 (fun t => - gap kappa nu (kappa * (1 + nu) ^ 2) t) (fun t => - gap' kappa nu (kappa * (1 + nu) ^ 2) t)); [lra|intros; apply (dlim_opp (gap kappa nu (kappa * (1 + nu) ^ 2))), gap_d|].
  intros x Hx. unfold gap'. set (a := 1 + nu) in *. assert (Ha : 0 <= a <= 1) by (unfold a; lra).
  pose proof (sin_ge_0 x ltac:(lra) ltac:(lra)) as S0. assert (Sx : sin x <= x). { destruct (Req_dec x 0) as [->|]; [rewrite sin_0; lra|]. left. apply sin_lt_x. lra. }
  assert (U : a * x <= x + nu * sin x <= x) by (unfold a; nra). assert (0 <= a * x) by nra.
  assert (Su : a * sin x <= sin (x + nu * sin x)).
  { destruct (Rle_lt_dec (x + nu * sin x) (PI / 2)) as [L|L].
    - eapply Rle_trans; [apply (sin_scale a x Ha ltac:(lra))|]. apply sin_incr_1; lra.
    - assert (sin x <= sin (x + nu * sin x)) by (apply sin_decr_1; lra). nra. }
  pose proof (COS_bound x). assert (Cx : a <= 1 + nu * cos x) by (unfold a; nra).
  assert (a * sin x * a <= sin (x + nu * sin x) * (1 + nu * cos x)) by (apply Rmult_le_compat; nra).
  assert (kappa * (a * sin x * a) <= kappa * (sin (x + nu * sin x) * (1 + nu * cos x))) by (apply Rmult_le_compat_l; assumption). lra.
Qed.

Lemma gap_even kappa nu k x : gap kappa nu k (- x) = gap kappa nu k x.
Proof. unfold gap. rewrite ft_log_even, cos_neg. reflexivity. Qed.
Lemma ft_size_even kappa nu : node (ft_size kappa nu) (ft_size kappa nu / 2) = 0 /\ (ft_size kappa nu / 2 <= ft_size kappa nu)%nat.
Proof.
  assert (E : exists h, ft_size kappa nu = (h * 2)%nat).
  { unfold ft_size. cbv zeta. set (k := ceil_log2 _). destruct (Nat.min_spec (Nat.max (2 ^ k) (Z.to_nat 512)) (Z.to_nat 8192)) as [[_ ->]|[_ ->]].
    - destruct (Nat.max_spec (2 ^ k) (Z.to_nat 512)) as [[_ ->]|[L ->]].
      + exists (Z.to_nat 256). replace (Z.to_nat 512) with (Z.to_nat (256 * 2)) by reflexivity. rewrite Z2Nat.inj_mul by lia. reflexivity.
      + destruct k as [|k']; [change (2 ^ 0)%nat with 1%nat in L; change (Z.to_nat 512) with 512%nat in L; lia|]. exists (2 ^ k')%nat. cbn [Nat.pow]. lia.
    - exists (Z.to_nat 4096). replace (Z.to_nat 8192) with (Z.to_nat (4096 * 2)) by reflexivity. rewrite Z2Nat.inj_mul by lia. reflexivity. }
  destruct E as [h E]. pose proof (ft_size_range kappa nu) as [HN _]. rewrite E in *. rewrite Nat.div_mul by lia. split; [|lia].
  unfold node. rewrite mult_INR. replace (INR 2) with 2 by reflexivity. assert (0 < INR h) by (apply lt_0_INR; lia). field. lra.
Qed.
Lemma ft_node_low kappa nu i : 0 <= kappa -> (i <= ft_size kappa nu)%nat -> ft_log kappa nu (node (ft_size kappa nu) i) + ft_lognorm kappa nu <= ln (ft_node_pdf kappa nu i).
Proof.
  intros Hk Hi. pose proof PI_gt3. pose proof (ft_size_range kappa nu) as [HN HN2]. pose proof (ft_size_INR kappa nu) as NI. set (N := ft_size kappa nu) in *. assert (HN' : (0 < N)%nat) by lia.
  assert (NU : INR N <= 8192). { eapply Rle_trans; [apply le_INR, HN2|]. rewrite INR_IZR_INZ, Z2Nat.id by lia. lra. }
  pose proof (ft_T_pos kappa nu) as TP. pose proof (step_pos N HN') as SP.
  assert (TL : forall j, (j <= N)%nat -> 1 / 2 * ft_shape kappa nu (node N j) * (2 * PI / INR N) <= ft_T kappa nu).
  { intros j Hj. unfold ft_T. fold N. set (p := fun j => ft_shape kappa nu (node N j)). assert (PP : forall k, 0 <= p k) by (intros; left; apply exp_pos).
    change (ft_shape kappa nu (node N j)) with (p j). destruct j as [|j].
    - apply Rle_trans with (trap_cum N p 1); [|apply trap_cum_mono; [exact HN'|exact PP|lia]]. rewrite trap_cum_S, trap_cum_0. pose proof (PP 1%nat). nra.
    - apply Rle_trans with (trap_cum N p (S j)); [|apply trap_cum_mono; [exact HN'|exact PP|lia]]. rewrite trap_cum_S. pose proof (PP j). pose proof (trap_nonneg N p j HN' PP). nra. }
  assert (LT : forall j, (j <= N)%nat -> ft_log kappa nu (node N j) + ft_lognorm kappa nu <= 700).
  { intros j Hj. rewrite <- (ln_exp 700), <- (ln_exp (ft_log kappa nu (node N j) + ft_lognorm kappa nu)). apply ln_le_mono; [apply exp_pos|]. rewrite exp_plus, ft_norm_T.
    change (exp (ft_log kappa nu (node N j))) with (ft_shape kappa nu (node N j)). apply Rle_trans with 8192.
    - apply Rmult_le_reg_r with (ft_T kappa nu); [exact TP|]. rewrite Rmult_assoc, Rinv_l, Rmult_1_r by lra. specialize (TL j Hj). assert (0 < ft_shape kappa nu (node N j)) by apply exp_pos.
      assert (S2 : 2 * 3 / 8192 <= 2 * PI / INR N). { unfold Rdiv. apply Rmult_le_compat; [lra|left; apply Rinv_0_lt_compat; lra|lra|apply Rinv_le_contravar; lra]. } nra.
    - replace 700 with (350 + 350) by ring. rewrite exp_plus. pose proof (exp_ge1 350). nra. }
  assert (G : forall j, (j <= N)%nat -> ft_log kappa nu (node N j) + ft_lognorm kappa nu <= ln (Rmax (exp (clip (ft_log kappa nu (node N j) + ft_lognorm kappa nu) (- 700) 700)) ftiny)).
  { intros j Hj. pose proof (LT j Hj). set (l := ft_log kappa nu (node N j) + ft_lognorm kappa nu) in *. rewrite <- (ln_exp l) at 1. apply ln_le_mono; [apply exp_pos|].
    eapply Rle_trans; [|apply Rmax_l]. apply expm_le. unfold clip. apply Rmin_glb; [apply Rmax_l|assumption]. }
  unfold ft_node_pdf. fold N. cbv zeta. destruct (Nat.eqb_spec i N) as [->|Ni]; [|apply G, Hi].
  rewrite node_N, <- ft_log_even, <- (node_0 N) by exact HN'. apply G. lia.
Qed.
Lemma ft_log_accept_eq iv mu kappa nu x : ft_log_accept iv mu kappa nu x = gap kappa nu (ft_env kappa nu) (x - mu)
   + (ft_lognorm kappa nu + (ln (2 * PI) + ln (iv 0%nat (ft_env kappa nu) * exp (- ft_env kappa nu)) + ft_env kappa nu) - ft_logmult iv kappa nu).
Proof.
  unfold ft_log_accept. cbv zeta. destruct (centre_turns (x - mu)) as [z E]. rewrite E, ft_log_turns. unfold ft_log_env, gap. cbv zeta. rewrite NpProofs.cos_turns. ring.
Qed.
Lemma ft_logmult_low iv kappa nu i : 0 <= kappa -> (i <= ft_size kappa nu)%nat ->
  gap kappa nu (ft_env kappa nu) (node (ft_size kappa nu) i) + (ft_lognorm kappa nu + (ln (2 * PI) + ln (iv 0%nat (ft_env kappa nu) * exp (- ft_env kappa nu)) + ft_env kappa nu)) <= ft_logmult iv kappa nu.
Proof.
  intros Hk Hi. unfold ft_logmult. cbv zeta. rewrite (ln_mult (exp _) (1 + 5 / 10 ^ 12)), ln_exp by (try apply exp_pos; lra).
  assert (L : 0 <= ln (1 + 5 / 10 ^ 12)) by (rewrite <- ln_1; apply ln_le_mono; lra).
  pose proof (node_max_ge (ft_size kappa nu) (fun i => ln (ft_node_pdf kappa nu i) - ft_log_env iv kappa nu (node (ft_size kappa nu) i)) i Hi) as M. cbv beta in M.
  pose proof (ft_node_low kappa nu i Hk Hi) as W. set (m := node_max _ _) in *. unfold ft_log_env in M. cbv zeta in M. unfold gap. lra.
Qed.
(** The largest value of the gap is (nearly) taken at a node. *)
Lemma gap_max kappa nu phi : 0 <= kappa <= 1000 -> -1 <= nu <= 1 -> 
  gap kappa nu (ft_env kappa nu) phi <= Rmax (gap kappa nu (ft_env kappa nu) 0) (gap kappa nu (ft_env kappa nu) PI) + 2 / 10 ^ 6 /\
  (0 <= nu \/ / 10 ^ 6 <= kappa * (1 + nu) ^ 2 -> gap kappa nu (ft_env kappa nu) phi <= Rmax (gap kappa nu (ft_env kappa nu) 0) (gap kappa nu (ft_env kappa nu) PI)).
Proof.
  intros Hk Hn. pose proof PI_gt3.
  assert (K0 : 0 <= ft_env kappa nu). { unfold ft_env, ft_kmax. pose proof (clip_bounds (kappa * (1 + nu) ^ 2) (/ 10 ^ 6) 1000 ltac:(lra)). lra. }
  assert (W : forall b, (forall t, 0 <= t <= PI -> gap kappa nu (ft_env kappa nu) t <= b) -> gap kappa nu (ft_env kappa nu) phi <= b).
  { intros b Hb. destruct (centre_turns phi) as [z E]. pose proof (centre_range phi) as Rg. set (c := pymod (phi + PI) (2 * PI) - PI) in *.
    assert (G : gap kappa nu (ft_env kappa nu) phi = gap kappa nu (ft_env kappa nu) c). { rewrite E. unfold gap. rewrite ft_log_turns, NpProofs.cos_turns. reflexivity. }
    rewrite G. destruct (Rle_lt_dec 0 c) as [L|L]; [apply Hb; lra|]. rewrite <- gap_even. apply Hb. lra. }
  destruct (Rle_lt_dec 0 nu) as [P|P].
  - assert (B : gap kappa nu (ft_env kappa nu) phi <= Rmax (gap kappa nu (ft_env kappa nu) 0) (gap kappa nu (ft_env kappa nu) PI)).
    { apply W. intros t Ht. destruct (gap_pos_nu kappa nu (ft_env kappa nu) t ltac:(lra) ltac:(lra) K0 Ht); [eapply Rle_trans; [eassumption|apply Rmax_l]|eapply Rle_trans; [eassumption|apply Rmax_r]]. }
    split; [lra|intros _; exact B].
  - assert (S2 : 0 <= kappa * (1 + nu) ^ 2 <= 1000). { assert (0 <= (1 + nu) ^ 2 <= 1) by nra. nra. }
    assert (D : forall t, 0 <= t <= PI -> gap kappa nu (ft_env kappa nu) t <= gap kappa nu (ft_env kappa nu) 0 + (ft_env kappa nu - kappa * (1 + nu) ^ 2) * (1 - cos t)).
    { intros t Ht. pose proof (gap_neg_nu kappa nu t ltac:(lra) ltac:(lra) Ht) as G. unfold gap in *. rewrite cos_0 in *. lra. }
    destruct (Rle_lt_dec (/ 10 ^ 6) (kappa * (1 + nu) ^ 2)) as [L|L].
    + assert (E : ft_env kappa nu = kappa * (1 + nu) ^ 2) by (unfold ft_env, ft_kmax; apply clip_id; lra).
      assert (B : gap kappa nu (ft_env kappa nu) phi <= Rmax (gap kappa nu (ft_env kappa nu) 0) (gap kappa nu (ft_env kappa nu) PI)).
      { apply W. intros t Ht. eapply Rle_trans; [|apply Rmax_l]. specialize (D t Ht). rewrite E in D at 3. rewrite Rminus_eq_0, Rmult_0_l in D. lra. }
      split; [lra|intros _; exact B].
    + assert (E : ft_env kappa nu = / 10 ^ 6). { unfold ft_env, ft_kmax, clip. rewrite Rmax_right by lra. apply Rmin_left. lra. }
      split; [|intros [?|?]; lra]. apply W. intros t Ht. eapply Rle_trans; [apply D, Ht|]. apply Rplus_le_compat; [apply Rmax_l|]. pose proof (COS_bound t). rewrite E. nra.
Qed.
Lemma ft_accept iv mu kappa nu x : 0 <= kappa <= 1000 -> -1 <= nu <= 1 ->
  ft_log_accept iv mu kappa nu x <= 2 / 10 ^ 6 /\ (0 <= nu \/ / 10 ^ 6 <= kappa * (1 + nu) ^ 2 -> ft_log_accept iv mu kappa nu x <= 0).
Proof.
  intros Hk Hn. rewrite ft_log_accept_eq. destruct (gap_max kappa nu (x - mu) Hk Hn) as [G1 G2]. destruct (ft_size_even kappa nu) as [E1 E2]. pose proof (ft_size_range kappa nu) as [HN _].
  pose proof (ft_logmult_low iv kappa nu (ft_size kappa nu / 2) ltac:(lra) E2) as M1. rewrite E1 in M1.
  pose proof (ft_logmult_low iv kappa nu (ft_size kappa nu) ltac:(lra) (le_n _)) as M2. rewrite node_N in M2 by lia.
  set (g0 := gap kappa nu (ft_env kappa nu) 0) in *. set (g1 := gap kappa nu (ft_env kappa nu) PI) in *.
  assert (M : forall e, gap kappa nu (ft_env kappa nu) (x - mu) <= Rmax g0 g1 + e ->
    gap kappa nu (ft_env kappa nu) (x - mu) + (ft_lognorm kappa nu + (ln (2 * PI) + ln (iv 0%nat (ft_env kappa nu) * exp (- ft_env kappa nu)) + ft_env kappa nu) - ft_logmult iv kappa nu) <= e).
  { intros e He. unfold Rmax in He. destruct (Rle_dec g0 g1); lra. }
  split; [apply M; lra|]. intros C. apply M. specialize (G2 C). lra.
Qed.
Lemma ft_env_pos kappa nu : 0 < ft_env kappa nu <= 1000.
Proof. unfold ft_env, ft_kmax. pose proof (clip_bounds (kappa * (1 + nu) ^ 2) (/ 10 ^ 6) 1000 ltac:(lra)). lra. Qed.
Lemma ft_rejection iv mu kappa nu : is_iv iv -> ft_ok mu kappa nu = true -> / 10 ^ 9 < kappa ->
  exists c k f, 0 < c /\ 0 < k /\ (forall x, ft_public_pdf mu kappa nu x = Fin (f x)) /\
    (forall x, exp (ft_log_accept iv mu kappa nu x) * von_pdf iv mu k x = c * f x) /\
    (forall x, exp (ft_log_accept iv mu kappa nu x) <= 1 + / 10 ^ 5) /\
    (0 <= nu \/ / 10 ^ 6 <= kappa * (1 + nu) ^ 2 -> forall x, exp (ft_log_accept iv mu kappa nu x) <= 1).
Proof.
  intros Hiv Hok Hs. pose proof PI_gt3. pose proof (proj1 (ft_ok_spec _ _ _) Hok) as (Hm & Hk & Hn). pose proof (ft_env_pos kappa nu) as KP. pose proof (i0_ge1 iv (ft_env kappa nu) Hiv) as I0.
  exists (exp (- ft_logmult iv kappa nu)), (ft_env kappa nu), (ft_pdf mu kappa nu). split; [apply exp_pos|]. split; [lra|]. split; [intros; apply ft_public_eq, Hok|].
  split; [|split].
  - intros x. rewrite ft_log_accept_eq, ft_pdf_eq by exact Hk. rewrite (proj2 (Rleb_false kappa ft_ktol)) by exact Hs. unfold von_pdf, gap.
    assert (LI : ln (iv 0%nat (ft_env kappa nu) * exp (- ft_env kappa nu)) + ft_env kappa nu = ln (iv 0%nat (ft_env kappa nu))) by (rewrite ln_mult, ln_exp by (try apply exp_pos; lra); ring).
    replace (ft_log kappa nu (x - mu) - ft_env kappa nu * cos (x - mu) + (ft_lognorm kappa nu + (ln (2 * PI) + ln (iv 0%nat (ft_env kappa nu) * exp (- ft_env kappa nu)) + ft_env kappa nu) - ft_logmult iv kappa nu))
      with (ft_log kappa nu (x - mu) + ft_lognorm kappa nu + ln (2 * PI) + ln (iv 0%nat (ft_env kappa nu)) + - ft_logmult iv kappa nu + - (ft_env kappa nu * cos (x - mu))) by lra.
    rewrite !exp_plus, ft_norm_T, !exp_ln by lra. rewrite (exp_Ropp (ft_env kappa nu * cos (x - mu))). change (exp (ft_log kappa nu (x - mu))) with (ft_shape kappa nu (x - mu)).
    pose proof (ft_T_pos kappa nu). pose proof (exp_pos (ft_env kappa nu * cos (x - mu))). field. repeat split; lra.
  - intros x. destruct (ft_accept iv mu kappa nu x Hk Hn) as [A _]. eapply Rle_trans; [apply expm_le, A|].
    apply Rle_trans with (/ (1 - 2 / 10 ^ 6)); [|lra]. rewrite <- (Rinv_inv (exp (2 / 10 ^ 6))), <- exp_Ropp. apply Rinv_le_contravar; [lra|]. pose proof (exp_ge1 (- (2 / 10 ^ 6))). lra.
  - intros C x. rewrite <- exp_0. apply expm_le. apply (ft_accept iv mu kappa nu x Hk Hn), C.
Qed.
