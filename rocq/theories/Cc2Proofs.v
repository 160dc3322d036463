(** Rotation, reflection, symmetry, particular families, sample moments. *)
From Verif Require Import Prelude NpModel NpProofs CircleSpec IntSpec IntProofs DistSpec DistModel DistProofs Dist2Proofs Dist7Proofs Em5Proofs
  UtilsModel UtilsProofs DescModel DescProofs Desc8Proofs Von3Proofs Von4Proofs CcModel CcSpec CcProofs.

Lemma wrap_dir_same u mu : - PI < u <= PI -> same_dir u mu -> wrap_direction u = pymod mu (2 * PI).
Proof.
  intros Hu H. pose proof PI_pos. unfold wrap_direction, wrap_angles. destruct (Reqb u (2 * PI)) eqn:E; [apply Reqb_true in E; lra|].
  apply same_dir_pymod, H.
Qed.
Lemma rot_hypot c s t : hypot (c * cos t - s * sin t) (c * sin t + s * cos t) = hypot c s.
Proof.
  unfold hypot. f_equal. pose proof (sin2_cos2 t) as T. unfold Rsqr in T.
  transitivity ((c * c + s * s) * (sin t * sin t + cos t * cos t)); [ring|rewrite T; ring].
Qed.
(** Everything from the polar form of the first moment and the second moment about its direction. *)
Lemma cc_from_polar r mu c2 s2 : / 10 ^ 12 < r <= 1 -> hypot c2 s2 <= 1 ->
  let m1 := (r * cos mu, r * sin mu) in
  let m2 := (c2 * cos (2 * mu) - s2 * sin (2 * mu), c2 * sin (2 * mu) + s2 * cos (2 * mu)) in
  cc_mean m1 = Fin (pymod mu (2 * PI)) /\ cc_r m1 = r /\ cc_var m1 = 1 - r /\ cc_std m1 = Fin (sqrt (- 2 * ln r)) /\
  cc_dispersion m1 m2 = Fin ((1 - hypot c2 s2) / (2 * r ^ 2)) /\
  cc_skewness m1 m2 = (if Rleb (1 - r) (/ 10 ^ 12) then NaN else Fin (s2 / Rpower (1 - r) (3 / 2))) /\
  cc_kurtosis m1 m2 = (if Rleb (1 - r) (/ 10 ^ 12) then NaN else Fin ((c2 - r ^ 4) / (1 - r) ^ 2)).
Proof.
  intros Hr H2 m1 m2. assert (T0 : 0 < / 10 ^ 12) by (apply Rinv_0_lt_compat; lra).
  assert (H1 : hypot (fst m1) (snd m1) = r) by (cbn; apply hypot_polar; lra).
  assert (Hh : hypot (fst m2) (snd m2) = hypot c2 s2) by (cbn; apply rot_hypot).
  assert (E1 : cc_r m1 = r) by (rewrite cc_r_eq; lra). assert (E2 : cc_r m2 = hypot c2 s2) by (rewrite cc_r_eq; lra).
  pose proof (arctan2_unique r mu (fst m1) (snd m1) ltac:(lra) eq_refl eq_refl) as Sd. pose proof (arctan2_range (snd m1) (fst m1)) as U.
  destruct (polar (fst m2) (snd m2)) as [P Q]. rewrite Hh in P, Q.
  unfold cc_mean, cc_std, cc_dispersion, cc_skewness, cc_kurtosis, cc_var. cbv zeta. rewrite E1, E2.
  rewrite (clip_in r 0 1) by lra. rewrite isclose12_f by lra. rewrite std_eq by lra. rewrite (Rmax_right 0 (1 - r)) by lra.
  set (u1 := arctan2 (snd m1) (fst m1)) in *. set (u2 := arctan2 (snd m2) (fst m2)) in *.
  assert (Ec : cos (2 * u1) = cos (2 * mu)) by (rewrite !cos_2a, (same_dir_cos _ _ Sd), (same_dir_sin _ _ Sd); reflexivity).
  assert (Es : sin (2 * u1) = sin (2 * mu)) by (rewrite !sin_2a, (same_dir_cos _ _ Sd), (same_dir_sin _ _ Sd); reflexivity).
  pose proof (sin2_cos2 (2 * mu)) as T. unfold Rsqr in T.
  assert (N1 : hypot c2 s2 * sin (u2 - 2 * u1) = s2).
  { rewrite sin_minus, Ec, Es. transitivity (hypot c2 s2 * sin u2 * cos (2 * mu) - hypot c2 s2 * cos u2 * sin (2 * mu)); [ring|].
    rewrite P, Q. cbn. transitivity (s2 * (sin (2 * mu) * sin (2 * mu) + cos (2 * mu) * cos (2 * mu))); [ring|rewrite T; ring]. }
  assert (N2 : hypot c2 s2 * cos (u2 - 2 * u1) = c2).
  { rewrite cos_minus, Ec, Es. transitivity (hypot c2 s2 * cos u2 * cos (2 * mu) + hypot c2 s2 * sin u2 * sin (2 * mu)); [ring|].
    rewrite P, Q. cbn. transitivity (c2 * (sin (2 * mu) * sin (2 * mu) + cos (2 * mu) * cos (2 * mu))); [ring|rewrite T; ring]. }
  rewrite N1, N2.
  split; [rewrite (wrap_dir_same u1 mu U Sd); reflexivity|]. repeat split.
  - do 2 f_equal. ring.
  - destruct (Rleb_spec (1 - r) (/ 10 ^ 12)) as [L|L].
    + rewrite (proj2 (isclose12_0 (1 - r) ltac:(lra)) L). reflexivity.
    + rewrite isclose12_f by lra. reflexivity.
  - destruct (Rleb_spec (1 - r) (/ 10 ^ 12)) as [L|L].
    + rewrite (proj2 (isclose12_0 (1 - r) ltac:(lra)) L). reflexivity.
    + rewrite isclose12_f by lra. reflexivity.
Qed.
(** Any two moments are of this form. *)
Lemma to_polar m1 m2 : exists mu c2 s2,
  m1 = (hypot (fst m1) (snd m1) * cos mu, hypot (fst m1) (snd m1) * sin mu) /\
  m2 = (c2 * cos (2 * mu) - s2 * sin (2 * mu), c2 * sin (2 * mu) + s2 * cos (2 * mu)) /\ hypot c2 s2 = hypot (fst m2) (snd m2).
Proof.
  destruct m1 as [a1 b1], m2 as [a2 b2]. cbn [fst snd]. destruct (polar a1 b1) as [P Q]. set (mu := arctan2 b1 a1) in *.
  pose proof (sin2_cos2 (2 * mu)) as T. unfold Rsqr in T.
  exists mu, (a2 * cos (2 * mu) + b2 * sin (2 * mu)), (b2 * cos (2 * mu) - a2 * sin (2 * mu)). split; [|split].
  - rewrite P, Q. reflexivity.
  - f_equal.
    + transitivity (a2 * (sin (2 * mu) * sin (2 * mu) + cos (2 * mu) * cos (2 * mu))); [rewrite T; ring|ring].
    + transitivity (b2 * (sin (2 * mu) * sin (2 * mu) + cos (2 * mu) * cos (2 * mu))); [rewrite T; ring|ring].
  - unfold hypot. f_equal. transitivity ((a2 * a2 + b2 * b2) * (sin (2 * mu) * sin (2 * mu) + cos (2 * mu) * cos (2 * mu))); [ring|rewrite T; ring].
Qed.
Lemma trig_unique f p a b a' b' : trig_moment_of f p a b -> trig_moment_of f p a' b' -> a = a' /\ b = b'.
Proof. intros [A B] [A' B']. split; eapply integral_unique; eauto. Qed.

(** ** Rotation *)
Lemma rot_moment f g t a b n : circle_density f -> 0 <= t <= 2 * PI -> (forall x, 0 <= x <= 2 * PI -> g x = f (x - t)) ->
  trig_moment_of f (Z.of_nat n) a b ->
  trig_moment_of g (Z.of_nat n) (a * cos (INR n * t) - b * sin (INR n * t)) (a * sin (INR n * t) + b * cos (INR n * t)).
Proof.
  intros (D & C & P) Ht E [A B]. unfold trig_moment_of. rewrite <- INR_IZR_INZ in *. apply (moment_shift f g t n a b Ht C P E A B).
Qed.
Lemma cc_rotation f g t m1 m2 n1 n2 mu : circle_density f -> 0 <= t <= 2 * PI -> (forall x, 0 <= x <= 2 * PI -> g x = f (x - t)) ->
  moments12 f m1 m2 -> moments12 g n1 n2 -> / 10 ^ 12 < hypot (fst m1) (snd m1) -> cc_mean m1 = Fin mu ->
  cc_mean n1 = Fin (pymod (mu + t) (2 * PI)) /\ cc_r n1 = cc_r m1 /\ cc_var n1 = cc_var m1 /\ cc_std n1 = cc_std m1 /\
  cc_dispersion n1 n2 = cc_dispersion m1 m2 /\ cc_skewness n1 n2 = cc_skewness m1 m2 /\ cc_kurtosis n1 n2 = cc_kurtosis m1 m2.
Proof.
  intros F Ht E M N Hr Hmu. destruct (moments_le _ _ _ M) as (E1 & E2 & R1 & R2).
  destruct M as (D & M1 & M2). destruct N as (_ & N1 & N2).
  pose proof (rot_moment f g t _ _ 1%nat F Ht E M1) as K1. pose proof (rot_moment f g t _ _ 2%nat F Ht E M2) as K2.
  destruct (trig_unique _ _ _ _ _ _ N1 K1) as [X1 Y1]. destruct (trig_unique _ _ _ _ _ _ N2 K2) as [X2 Y2].
  destruct (to_polar m1 m2) as (v & c2 & s2 & F1 & F2 & F3). rewrite <- E1 in *. rewrite <- E2 in *. set (r := cc_r m1) in *.
  assert (G1 : n1 = (r * cos (v + t), r * sin (v + t))).
  { rewrite (surjective_pairing n1), X1, Y1, F1. cbn [fst snd INR]. rewrite !Rmult_1_l, cos_plus, sin_plus. f_equal; ring. }
  assert (G2 : n2 = (c2 * cos (2 * (v + t)) - s2 * sin (2 * (v + t)), c2 * sin (2 * (v + t)) + s2 * cos (2 * (v + t)))).
  { rewrite (surjective_pairing n2), X2, Y2, F2. cbn [fst snd INR]. replace (1 + 1) with 2 by ring.
    replace (2 * (v + t)) with (2 * v + 2 * t) by ring. rewrite cos_plus, sin_plus. f_equal; ring. }
  pose proof (cc_from_polar r v c2 s2 ltac:(lra) ltac:(rewrite F3; lra)) as A. cbv zeta in A. rewrite <- F1, <- F2 in A.
  pose proof (cc_from_polar r (v + t) c2 s2 ltac:(lra) ltac:(rewrite F3; lra)) as B. cbv zeta in B. rewrite <- G1, <- G2 in B.
  destruct A as (A1 & A2 & A3 & A4 & A5 & A6 & A7). destruct B as (B1 & B2 & B3 & B4 & B5 & B6 & B7).
  rewrite B1, B2, B3, B4, B5, B6, B7, A3, A4, A5, A6, A7. repeat split.
  f_equal. apply same_dir_pymod. rewrite A1 in Hmu. injection Hmu as <-. destruct (pymod_same_dir v) as [k Hk]. exists (- k)%Z.
  rewrite Hk, opp_IZR. ring.
Qed.

(** ** Reflection *)
Lemma int_reflect f v : (forall x, continuity_pt f x) -> integral f 0 (2 * PI) v -> integral (fun x => f (2 * PI - x)) 0 (2 * PI) v.
Proof.
  intros C Hv. pose proof PI_pos. destruct (primitive_exists f 0 (2 * PI)) as [Q HQ]; [lra|auto|].
  assert (I1 : integral f 0 (2 * PI) (Q (2 * PI) - Q 0)) by (apply ftc; [lra|auto|exact HQ]).
  rewrite (integral_unique _ _ _ _ _ Hv I1).
  apply (integral_val _ _ _ (- Q (2 * PI - 2 * PI) - - Q (2 * PI - 0))).
  - replace (2 * PI - 2 * PI) with 0 by ring. rewrite Rminus_0_r. ring.
  - apply (ftc _ (fun t => - Q (2 * PI - t))); [lra| |].
    + intros x _. apply (continuity_pt_comp (fun x => 2 * PI - x) f x); [|apply C]. apply derivable_continuous_pt. reg.
    + intros x Hx. eapply dlim_eq; [|apply dlim_opp, (dlim_comp Q (fun t => 2 * PI - t)); [apply dlim_minus; [apply dlim_const|apply dlim_id]|apply HQ; lra]].
      ring.
Qed.
Lemma ref_moment f g a b n : circle_density f -> (forall x, 0 <= x <= 2 * PI -> g x = f (2 * PI - x)) ->
  trig_moment_of f (Z.of_nat n) a b -> trig_moment_of g (Z.of_nat n) a (- b).
Proof.
  intros (D & C & P) E [A B]. unfold trig_moment_of. rewrite <- INR_IZR_INZ in *. pose proof PI_pos. assert (L : 0 <= 2 * PI) by lra. split.
  - apply (integral_ext (fun x => cos (INR n * (2 * PI - x)) * f (2 * PI - x))); [exact L| |].
    + intros x Hx. rewrite E by exact Hx. f_equal. replace (INR n * (2 * PI - x)) with (INR n * (- x + 2 * PI)) by ring.
      rewrite cos_per. replace (INR n * - x) with (- (INR n * x)) by ring. apply cos_neg.
    + apply (int_reflect (fun x => cos (INR n * x) * f x)); [|exact A]. intros x. apply cont_mult; [apply cos_n_cont|apply C].
  - apply (integral_ext (fun x => (- 1) * (sin (INR n * (2 * PI - x)) * f (2 * PI - x)))); [exact L| |].
    + intros x Hx. rewrite E by exact Hx. rewrite sin_refl. ring.
    + apply (integral_val _ _ _ ((- 1) * b)); [ring|]. apply integral_scal; [exact L|].
      apply (int_reflect (fun x => sin (INR n * x) * f x)); [|exact B]. intros x. apply cont_mult; [apply sin_n_cont|apply C].
Qed.
Definition fopp (x : fl) : fl := match x with Fin v => Fin (- v) | NaN => NaN | PInf => NInf | NInf => PInf end.
Lemma cc_reflection f g m1 m2 n1 n2 mu : circle_density f -> (forall x, 0 <= x <= 2 * PI -> g x = f (2 * PI - x)) ->
  moments12 f m1 m2 -> moments12 g n1 n2 -> / 10 ^ 12 < hypot (fst m1) (snd m1) -> cc_mean m1 = Fin mu ->
  cc_mean n1 = Fin (pymod (- mu) (2 * PI)) /\ cc_r n1 = cc_r m1 /\ cc_var n1 = cc_var m1 /\ cc_std n1 = cc_std m1 /\
  cc_dispersion n1 n2 = cc_dispersion m1 m2 /\ cc_skewness n1 n2 = fopp (cc_skewness m1 m2) /\ cc_kurtosis n1 n2 = cc_kurtosis m1 m2.
Proof.
  intros F E M N Hr Hmu. destruct (moments_le _ _ _ M) as (E1 & E2 & R1 & R2).
  destruct M as (D & M1 & M2). destruct N as (_ & N1 & N2).
  pose proof (ref_moment f g _ _ 1%nat F E M1) as K1. pose proof (ref_moment f g _ _ 2%nat F E M2) as K2.
  destruct (trig_unique _ _ _ _ _ _ N1 K1) as [X1 Y1]. destruct (trig_unique _ _ _ _ _ _ N2 K2) as [X2 Y2].
  destruct (to_polar m1 m2) as (v & c2 & s2 & F1 & F2 & F3). rewrite <- E1 in *. rewrite <- E2 in *. set (r := cc_r m1) in *.
  assert (G1 : n1 = (r * cos (- v), r * sin (- v))).
  { rewrite (surjective_pairing n1), X1, Y1, F1. cbn [fst snd]. rewrite cos_neg, sin_neg. f_equal; ring. }
  assert (G2 : n2 = (c2 * cos (2 * - v) - (- s2) * sin (2 * - v), c2 * sin (2 * - v) + (- s2) * cos (2 * - v))).
  { rewrite (surjective_pairing n2), X2, Y2, F2. cbn [fst snd].
    replace (2 * - v) with (- (2 * v)) by ring. rewrite cos_neg, sin_neg. f_equal; ring. }
  assert (H' : hypot c2 (- s2) = hypot c2 s2) by (unfold hypot; f_equal; ring).
  pose proof (cc_from_polar r v c2 s2 ltac:(lra) ltac:(rewrite F3; lra)) as A. cbv zeta in A. rewrite <- F1, <- F2 in A.
  pose proof (cc_from_polar r (- v) c2 (- s2) ltac:(lra) ltac:(rewrite H', F3; lra)) as B. cbv zeta in B. rewrite <- G1, <- G2, H' in B.
  destruct A as (A1 & A2 & A3 & A4 & A5 & A6 & A7). destruct B as (B1 & B2 & B3 & B4 & B5 & B6 & B7).
  rewrite B1, B2, B3, B4, B5, B6, B7, A3, A4, A5, A6, A7. repeat split.
  - f_equal. apply same_dir_pymod. rewrite A1 in Hmu. injection Hmu as <-. destruct (pymod_same_dir v) as [k Hk]. exists k. rewrite Hk. ring.
  - destruct (Rleb (1 - r) (/ 10 ^ 12)); [reflexivity|]. cbn. f_equal. unfold Rdiv. ring.
Qed.

(** ** Families with moments r_p (cos p mu, sin p mu) *)
Lemma cc_family r1 r2 mu : / 10 ^ 12 < r1 < 1 - / 10 ^ 12 -> 0 <= r2 <= 1 -> 0 <= mu < 2 * PI ->
  let m1 := (r1 * cos mu, r1 * sin mu) in let m2 := (r2 * cos (2 * mu), r2 * sin (2 * mu)) in
  cc_mean m1 = Fin mu /\ cc_r m1 = r1 /\ cc_std m1 = Fin (sqrt (- 2 * ln r1)) /\
  cc_dispersion m1 m2 = Fin ((1 - r2) / (2 * r1 ^ 2)) /\ cc_skewness m1 m2 = Fin 0 /\ cc_kurtosis m1 m2 = Fin ((r2 - r1 ^ 4) / (1 - r1) ^ 2).
Proof.
  intros H1 H2 Hm m1 m2. pose proof PI_pos. assert (Hh : hypot r2 0 = r2) by (unfold hypot; rewrite Rmult_0_l, Rplus_0_r; apply sqrt_square; lra).
  pose proof (cc_from_polar r1 mu r2 0 ltac:(lra) ltac:(rewrite Hh; lra)) as A. cbv zeta in A. rewrite Hh in A.
  replace (r2 * cos (2 * mu) - 0 * sin (2 * mu), r2 * sin (2 * mu) + 0 * cos (2 * mu)) with m2 in A by (unfold m2; f_equal; ring). fold m1 in A.
  destruct A as (A1 & A2 & A3 & A4 & A5 & A6 & A7). rewrite A1, A2, A4, A5, A6, A7. rewrite (proj2 (Rleb_false (1 - r1) (/ 10 ^ 12))) by lra.
  rewrite pymod_small by lra. repeat split. f_equal. unfold Rdiv. ring.
Qed.

(** ** The moments of a sample *)
Lemma cc_sample s : (forall p, In p s -> 0 <= snd p) -> 0 < wtotal s ->
  let m1 := circ_moment s 1 0 in let m2 := circ_moment s 2 0 in
  / 10 ^ 12 < circ_r_s s < 1 - / 10 ^ 12 ->
  cc_dispersion m1 m2 = Fin (circ_dispersion s) /\ cc_skewness m1 m2 = Fin (circ_skewness s) /\ cc_kurtosis m1 m2 = Fin (circ_kurtosis s) /\
  cc_mean m1 = fst (circ_mean_and_r_s s) /\ cc_r m1 = snd (circ_mean_and_r_s s).
Proof.
  intros Hw Ht m1 m2 Hr. pose proof PI_pos.
  assert (H1 : hypot (fst m1) (snd m1) = circ_r_s s) by (unfold m1, circ_moment; cbn [fst snd]; apply hypot_1).
  assert (H2 : hypot (fst m2) (snd m2) <= 1).
  { unfold m2, circ_moment. cbn [fst snd]. rewrite hypot_2 by exact Ht. rewrite <- (wtotal_dbl s). 
    assert (L : Rlen (dbl s) <= wtotal (dbl s)).
    { apply Rlen_le_total. intros p Hp. unfold dbl in Hp. apply in_map_iff in Hp. destruct Hp as (q & <- & Hq). cbn. apply Hw, Hq. }
    apply Rmult_le_reg_r with (wtotal (dbl s)); [rewrite wtotal_dbl; exact Ht|]. unfold Rdiv. rewrite Rmult_assoc, Rinv_l by (rewrite wtotal_dbl; lra). lra. }
  assert (E1 : cc_r m1 = circ_r_s s) by (rewrite cc_r_eq; lra). pose proof (cc_r_eq m2 H2) as E2.
  assert (Sd1 := angmod0_same_dir (arctan2 (snd m1) (fst m1))). assert (Sd2 := angmod0_same_dir (arctan2 (snd m2) (fst m2))).
  unfold circ_skewness, circ_kurtosis, circ_dispersion, convert_moment. fold m1 m2. cbv zeta.
  unfold cc_mean, cc_dispersion, cc_skewness, cc_kurtosis, circ_mean_and_r_s. cbv zeta. rewrite E1, E2, H1.
  rewrite (Rmax_right 0) by lra. rewrite !isclose12_f by lra. cbn [fst snd].
  set (u1 := arctan2 (snd m1) (fst m1)) in *. set (u2 := arctan2 (snd m2) (fst m2)) in *.
  assert (Sd : same_dir (angmod0 u2 - 2 * angmod0 u1) (u2 - 2 * u1)).
  { destruct Sd1 as [k1 K1], Sd2 as [k2 K2]. exists (k2 - 2 * k1)%Z. rewrite minus_IZR, mult_IZR. lra. }
  rewrite (same_dir_sin _ _ Sd), (same_dir_cos _ _ Sd).
  repeat split.
  - do 2 f_equal. ring.
  - rewrite (wrap_dir_same u1 u1); [|apply arctan2_range|exists 0%Z; lra]. rewrite <- angmod0_eq. reflexivity.
Qed.
