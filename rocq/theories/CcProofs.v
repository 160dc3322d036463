(** Statistics of a distribution from its first two moments. *)
From Verif Require Import Prelude NpModel NpProofs IntSpec IntProofs DistSpec DistModel DistProofs Dist2Proofs Dist7Proofs Em5Proofs CcModel CcSpec.

Lemma isclose12_0 x : 0 <= x -> (isclose12 x 0 = true <-> x <= / 10 ^ 12).
Proof.
  intros Hx. unfold isclose12, isclose_tol. rewrite Rminus_0_r, Rabs_R0, (Rabs_right x) by lra.
  destruct (Rleb _ _) eqn:E; [apply Rleb_true in E|apply Rleb_false in E]; split; intros; try lra; try discriminate; reflexivity.
Qed.
Lemma isclose12_f x : / 10 ^ 12 < x -> isclose12 x 0 = false.
Proof.
  intros Hx. destruct (isclose12 x 0) eqn:E; [|reflexivity]. apply isclose12_0 in E; [lra|]. assert (0 < / 10 ^ 12) by (apply Rinv_0_lt_compat; lra). lra.
Qed.

Lemma shift_int f a b c s mu (k : R) : integral (fun x => cos (k * x) * f x) a b c -> integral (fun x => sin (k * x) * f x) a b s -> a <= b ->
  integral (fun x => cos (k * (x - mu)) * f x) a b (c * cos (k * mu) + s * sin (k * mu)) /\
  integral (fun x => sin (k * (x - mu)) * f x) a b (s * cos (k * mu) - c * sin (k * mu)).
Proof.
  intros A B L. pose proof (integral_scal _ _ _ (cos (k * mu)) _ L A) as A1. pose proof (integral_scal _ _ _ (cos (k * mu)) _ L B) as B1. split.
  - apply (integral_ext (fun x => cos (k * mu) * (cos (k * x) * f x) + sin (k * mu) * (sin (k * x) * f x))); [exact L| |].
    + intros x _. replace (k * (x - mu)) with (k * x - k * mu) by ring. rewrite cos_minus. ring.
    + eapply integral_val; [|apply integral_lin; [exact A1|exact B]]. ring.
  - apply (integral_ext (fun x => cos (k * mu) * (sin (k * x) * f x) + (- sin (k * mu)) * (cos (k * x) * f x))); [exact L| |].
    + intros x _. replace (k * (x - mu)) with (k * x - k * mu) by ring. rewrite sin_minus. ring.
    + eapply integral_val; [|apply integral_lin; [exact B1|exact A]]. ring.
Qed.
Lemma moment_le1 f k c s : density f -> integral (fun x => cos (k * x) * f x) 0 (2 * PI) c -> integral (fun x => sin (k * x) * f x) 0 (2 * PI) s ->
  hypot c s <= 1.
Proof.
  intros [N I] A B. pose proof PI_pos. assert (L : 0 <= 2 * PI) by lra.
  destruct (polar c s) as [P Q]. set (u := arctan2 s c) in *. set (h := hypot c s) in *.
  pose proof (integral_scal _ _ _ (cos u) _ L A) as A1. pose proof (integral_lin _ _ _ _ (sin u) _ _ A1 B) as K.
  assert (E : cos u * c + sin u * s = h).
  { rewrite <- P, <- Q. pose proof (sin2_cos2 u) as T. unfold Rsqr in T.
    transitivity (h * (sin u * sin u + cos u * cos u)); [ring|rewrite T; ring]. }
  rewrite E in K. refine (integral_le _ f 0 (2 * PI) h 1 L _ K I). intros x _. cbv beta.
  replace (cos u * (cos (k * x) * f x) + sin u * (sin (k * x) * f x)) with (cos (k * x - u) * f x) by (rewrite cos_minus; ring).
  pose proof (COS_bound (k * x - u)). specialize (N x). nra.
Qed.
Lemma cc_r_eq m : hypot (fst m) (snd m) <= 1 -> cc_r m = hypot (fst m) (snd m).
Proof. intros H. unfold cc_r. apply clip_in. split; [apply hypot_nonneg|exact H]. Qed.
Lemma trig_in f p a b : trig_moment_of f p a b -> integral (fun x => cos (IZR p * x) * f x) 0 (2 * PI) a /\ integral (fun x => sin (IZR p * x) * f x) 0 (2 * PI) b.
Proof. exact (fun H => H). Qed.
Lemma moments_le f m1 m2 : moments12 f m1 m2 -> cc_r m1 = hypot (fst m1) (snd m1) /\ cc_r m2 = hypot (fst m2) (snd m2) /\ 0 <= cc_r m1 <= 1 /\ 0 <= cc_r m2 <= 1.
Proof.
  intros (D & [A1 B1] & [A2 B2]). pose proof (moment_le1 _ _ _ _ D A1 B1). pose proof (moment_le1 _ _ _ _ D A2 B2).
  rewrite !cc_r_eq by assumption. pose proof (hypot_nonneg (fst m1) (snd m1)). pose proof (hypot_nonneg (fst m2) (snd m2)). repeat split; lra.
Qed.
Lemma wrap_dir_trig u : exists v, wrap_direction u = v /\ 0 <= v <= 2 * PI /\ cos v = cos u /\ sin v = sin u.
Proof.
  exists (wrap_angles u). split; [reflexivity|]. split; [apply wrap_range|]. unfold wrap_angles. destruct (Reqb u (2 * PI)) eqn:E.
  - apply Reqb_true in E. subst. auto.
  - split; [apply mod2pi_cos|apply mod2pi_sin].
Qed.
Lemma wrap_dir_lt u : u < 2 * PI -> wrap_direction u < 2 * PI.
Proof.
  intros H. unfold wrap_direction, wrap_angles. destruct (Reqb u (2 * PI)) eqn:E; [apply Reqb_true in E; lra|].
  apply pymod_range. pose proof PI_pos. lra.
Qed.

(** The moments about the mean direction, in polar form. *)
Lemma about_mean_intro f m1 m2 : moments12 f m1 m2 -> 0 < cc_r m1 ->
  let u1 := arctan2 (snd m1) (fst m1) in let u2 := arctan2 (snd m2) (fst m2) in
  about_mean f (wrap_direction u1) (cc_r m1) (cc_r m2 * cos (u2 - 2 * u1)) (cc_r m2 * sin (u2 - 2 * u1)).
Proof.
  intros M Hr u1 u2. destruct (moments_le _ _ _ M) as (E1 & E2 & R1 & R2). destruct M as (D & [A1 B1] & [A2 B2]).
  pose proof PI_pos. assert (L : 0 <= 2 * PI) by lra.
  destruct (polar (fst m1) (snd m1)) as [P1 Q1]. destruct (polar (fst m2) (snd m2)) as [P2 Q2].
  fold u1 in P1, Q1. fold u2 in P2, Q2. rewrite <- E1 in P1, Q1. rewrite <- E2 in P2, Q2.
  pose proof (arctan2_range (snd m1) (fst m1)) as U. fold u1 in U.
  pose proof (wrap_dir_lt u1 ltac:(lra)) as W. destruct (wrap_dir_trig u1) as (v & Ev & Rv & Cv & Sv). rewrite Ev in *.
  destruct (shift_int f _ _ _ _ v (IZR 1) A1 B1 L) as [K1 K2]. destruct (shift_int f _ _ _ _ v (IZR 2) A2 B2 L) as [K3 K4].
  pose proof (sin2_cos2 u1) as T. unfold Rsqr in T.
  assert (C2v : cos (IZR 2 * v) = cos (2 * u1)) by (rewrite !cos_2a, Cv, Sv; ring).
  assert (S2v : sin (IZR 2 * v) = sin (2 * u1)) by (rewrite !sin_2a, Cv, Sv; ring).
  unfold about_mean. split; [lra|]. split; [lra|]. repeat split.
  - eapply integral_val; [|eapply integral_ext; [exact L| |exact K1]]; [|intros x _; cbv beta; rewrite Rmult_1_l; reflexivity].
    rewrite Rmult_1_l, Cv, Sv, <- P1, <- Q1. nra.
  - eapply integral_val; [|eapply integral_ext; [exact L| |exact K2]]; [|intros x _; cbv beta; rewrite Rmult_1_l; reflexivity].
    rewrite Rmult_1_l, Cv, Sv, <- P1, <- Q1. ring.
  - eapply integral_val; [|exact K3]. rewrite C2v, S2v, <- P2, <- Q2, cos_minus. ring.
  - eapply integral_val; [|exact K4]. rewrite C2v, S2v, <- P2, <- Q2, sin_minus. ring.
Qed.
Lemma hypot_polar r u : 0 <= r -> hypot (r * cos u) (r * sin u) = r.
Proof.
  intros H. unfold hypot. replace (r * cos u * (r * cos u) + r * sin u * (r * sin u)) with (r * r * (sin u * sin u + cos u * cos u)) by ring.
  pose proof (sin2_cos2 u) as T. unfold Rsqr in T. rewrite T, Rmult_1_r. apply sqrt_square, H.
Qed.
Lemma std_eq r : / 10 ^ 12 < r <= 1 -> Rmax 0 (- 2 * ln (clip r ftiny 1)) = - 2 * ln r.
Proof.
  intros [H1 H2]. assert (F : ftiny <= / 10 ^ 12).
  { unfold ftiny. apply Rinv_le_contravar; [apply pow_lt; lra|]. apply Rle_trans with (2 ^ 40); [lra|]. apply Rle_pow; [lra|lia]. }
  rewrite clip_in by lra. rewrite Rmax_right; [reflexivity|]. assert (0 < / 10 ^ 12) by (apply Rinv_0_lt_compat; lra).
  assert (ln r <= 0); [|lra]. rewrite <- ln_1. destruct (Req_dec r 1) as [->|N]; [lra|]. left. apply ln_increasing; lra.
Qed.

Lemma cc_values f m1 m2 med : moments12 f m1 m2 -> / 10 ^ 12 < hypot (fst m1) (snd m1) ->
  exists mu r c2 s2, about_mean f mu r c2 s2 /\
    cc_mean m1 = Fin mu /\ cc_r m1 = r /\ cc_var m1 = 1 - r /\ cc_std m1 = Fin (sqrt (- 2 * ln r)) /\
    cc_dispersion m1 m2 = Fin ((1 - hypot c2 s2) / (2 * r ^ 2)) /\
    (r < 1 - / 10 ^ 12 -> cc_skewness m1 m2 = Fin (s2 / Rpower (1 - r) (3 / 2)) /\
                          cc_kurtosis m1 m2 = Fin ((c2 - r ^ 4) / (1 - r) ^ 2)) /\
    (1 - / 10 ^ 12 <= r -> cc_skewness m1 m2 = NaN /\ cc_kurtosis m1 m2 = NaN) /\
    cc_stats m1 m2 med = (cc_mean m1, med, r, 1 - r, cc_std m1, cc_dispersion m1 m2, cc_skewness m1 m2, cc_kurtosis m1 m2).
Proof.
  intros M H. assert (T0 : 0 < / 10 ^ 12) by (apply Rinv_0_lt_compat; lra).
  destruct (moments_le _ _ _ M) as (E1 & E2 & R1 & R2). rewrite <- E1 in H.
  eexists _, (cc_r m1), _, _. split; [apply (about_mean_intro f m1 m2 M); lra|].
  unfold cc_mean, cc_std, cc_dispersion, cc_skewness, cc_kurtosis, cc_var, cc_stats. fold (cc_r m1). fold (cc_r m2). cbv zeta.
  rewrite (clip_in (cc_r m1) 0 1) by lra. rewrite isclose12_f by exact H. rewrite std_eq by lra. rewrite hypot_polar by lra.
  rewrite (Rmax_right 0 (1 - cc_r m1)) by lra.
  replace (2 * cc_r m1 * cc_r m1) with (2 * cc_r m1 ^ 2) by ring.
  repeat split.
  - rewrite isclose12_f by lra. reflexivity.
  - rewrite isclose12_f by lra. reflexivity.
  - rewrite (proj2 (isclose12_0 (1 - cc_r m1) ltac:(lra))) by lra. reflexivity.
  - rewrite (proj2 (isclose12_0 (1 - cc_r m1) ltac:(lra))) by lra. reflexivity.
  - destruct (isclose12 (1 - cc_r m1) 0); reflexivity.
Qed.
Lemma cc_values_none f m1 m2 med : moments12 f m1 m2 -> hypot (fst m1) (snd m1) <= / 10 ^ 12 ->
  cc_mean m1 = NaN /\ cc_std m1 = PInf /\ cc_dispersion m1 m2 = PInf /\
  cc_stats m1 m2 med = (NaN, med, cc_r m1, cc_var m1, PInf, PInf, cc_skewness m1 m2, cc_kurtosis m1 m2).
Proof.
  intros M H. destruct (moments_le _ _ _ M) as (E1 & E2 & R1 & R2). rewrite <- E1 in H.
  unfold cc_mean, cc_std, cc_dispersion, cc_skewness, cc_kurtosis, cc_var, cc_stats. fold (cc_r m1). fold (cc_r m2). cbv zeta.
  rewrite (clip_in (cc_r m1) 0 1) by lra. rewrite (proj2 (isclose12_0 (cc_r m1) ltac:(lra)) H). repeat split.
  destruct (isclose12 (Rmax 0 (1 - cc_r m1)) 0); reflexivity.
Qed.
