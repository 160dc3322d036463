(** C79, C80: dispersion, skewness and kurtosis. *)
From Verif Require Import Prelude NpModel NpProofs CircleSpec UtilsModel UtilsProofs
  DescModel DescProofs DescSpec DescApi DescApi2 DescEx.

Definition dbl (s : wsample) : wsample := map (fun x => (2 * fst x, snd x)) s.
Lemma wtotal_dbl s : wtotal (dbl s) = wtotal s.
Proof. unfold wtotal, dbl. rewrite map_map. reflexivity. Qed.
Lemma C2_eq s : compute_C s 2 0 = Csum (dbl s) / wtotal s.
Proof.
  unfold compute_C, Csum, dbl. rewrite map_map. do 2 f_equal. apply map_ext. intros x. cbn.
  do 2 f_equal. ring.
Qed.
Lemma S2_eq s : compute_S s 2 0 = Ssum (dbl s) / wtotal s.
Proof.
  unfold compute_S, Ssum, dbl. rewrite map_map. do 2 f_equal. apply map_ext. intros x. cbn.
  do 2 f_equal. ring.
Qed.
Lemma hypot_1 s : hypot (compute_C s 1 0) (compute_S s 1 0) = circ_r_s s.
Proof. unfold hypot, circ_r_s. f_equal. ring. Qed.
Lemma hypot_2 s : 0 < wtotal s -> hypot (compute_C s 2 0) (compute_S s 2 0) = Rlen (dbl s) / wtotal s.
Proof.
  intros H. rewrite C2_eq, S2_eq. unfold hypot.
  rewrite <- (wtotal_dbl s), <- circ_r_s_eq by (rewrite wtotal_dbl; auto).
  unfold circ_r_s. rewrite compute_C_eq, compute_S_eq. f_equal. ring.
Qed.
Lemma hypot_dir x y t : x * cos t + y * sin t = hypot x y * cos (angmod0 (arctan2 y x) - t) /\
  y * cos t - x * sin t = hypot x y * sin (angmod0 (arctan2 y x) - t).
Proof.
  assert (P : x = hypot x y * cos (angmod0 (arctan2 y x)) /\ y = hypot x y * sin (angmod0 (arctan2 y x))).
  { rewrite (same_dir_cos _ _ (angmod0_same_dir (arctan2 y x))), (same_dir_sin _ _ (angmod0_same_dir (arctan2 y x))).
    destruct (Req_dec x 0) as [X|X], (Req_dec y 0) as [Y|Y].
    - subst. unfold hypot. replace (0 * 0 + 0 * 0) with 0 by ring. rewrite sqrt_0. lra.
    - apply arctan2_polar; auto.
    - apply arctan2_polar; auto.
    - apply arctan2_polar; auto. }
  destruct P as [P1 P2]. revert P1 P2. generalize (hypot x y), (angmod0 (arctan2 y x)). intros h u -> ->.
  rewrite cos_minus, sin_minus. split; ring.
Qed.
Lemma dbl_proj s t : Csum (dbl s) * cos (2 * t) + Ssum (dbl s) * sin (2 * t) =
  Rsum (map (fun x => snd x * cos (2 * (fst x - t))) s).
Proof.
  rewrite proj_eq. unfold dbl. rewrite map_map. f_equal. apply map_ext. intros x. cbn. do 2 f_equal. ring.
Qed.
Lemma dbl_orth s t : Ssum (dbl s) * cos (2 * t) - Csum (dbl s) * sin (2 * t) =
  Rsum (map (fun x => snd x * sin (2 * (fst x - t))) s).
Proof.
  rewrite orth_eq. unfold dbl. rewrite map_map. f_equal. apply map_ext. intros x. cbn. do 2 f_equal. ring.
Qed.
Lemma skewness_eq s : 0 < wtotal s ->
  circ_skewness s = (Rsum (map (fun x => snd x * sin (2 * (fst x - mean_dir s))) s) / wtotal s)
                    / Rpower (1 - circ_r_s s) (3/2).
Proof.
  intros H. unfold circ_skewness, convert_moment, circ_moment. cbn [fst snd].
  rewrite hypot_1. fold (mean_dir s). f_equal.
  rewrite <- (proj2 (hypot_dir (compute_C s 2 0) (compute_S s 2 0) (2 * mean_dir s))).
  rewrite C2_eq, S2_eq, <- dbl_orth. field. lra.
Qed.
Lemma kurtosis_eq s : 0 < wtotal s ->
  circ_kurtosis s = (Rsum (map (fun x => snd x * cos (2 * (fst x - mean_dir s))) s) / wtotal s
                     - circ_r_s s ^ 4) / (1 - circ_r_s s) ^ 2.
Proof.
  intros H. unfold circ_kurtosis, convert_moment, circ_moment. cbn [fst snd].
  rewrite hypot_1. fold (mean_dir s). do 2 f_equal.
  rewrite <- (proj1 (hypot_dir (compute_C s 2 0) (compute_S s 2 0) (2 * mean_dir s))).
  rewrite C2_eq, S2_eq, <- dbl_proj. field. lra.
Qed.
Lemma dispersion_eq s : 0 < wtotal s ->
  circ_dispersion s = (1 - circ_r_s (dbl s)) / (2 * circ_r_s s ^ 2).
Proof.
  intros H. unfold circ_dispersion, circ_moment. cbn [fst snd]. rewrite hypot_1, hypot_2 by auto.
  rewrite (circ_r_s_eq (dbl s)) by (rewrite wtotal_dbl; auto). rewrite wtotal_dbl. reflexivity.
Qed.
Lemma smp_dbl alpha w : smp (map (fun a => 2 * a) alpha) w = dbl (smp alpha w).
Proof.
  unfold smp, dbl. rewrite !weights_eff, eff_weights_map, combine_map_l. reflexivity.
Qed.
(** API forms. *)
Lemma dispersion_api alpha w : valid_sample alpha w -> 0 < circ_r alpha w ->
  circ_dispersion (smp alpha w) = (1 - circ_r (map (fun a => 2 * a) alpha) w) / (2 * circ_r alpha w ^ 2) /\
  0 <= circ_dispersion (smp alpha w).
Proof.
  intros V Hr. pose proof (smp_pos _ _ V) as P.
  assert (E : circ_dispersion (smp alpha w) = (1 - circ_r (map (fun a => 2 * a) alpha) w) / (2 * circ_r alpha w ^ 2)).
  { rewrite dispersion_eq by auto. unfold circ_r. fold (smp alpha w). fold (smp (map (fun a => 2 * a) alpha) w).
    rewrite smp_dbl. reflexivity. }
  split; [exact E|]. rewrite E.
  assert (R2 : circ_r (map (fun a => 2 * a) alpha) w <= 1) by (apply circ_r_range, valid_map, V).
  apply Rmult_le_pos; [lra|]. left. apply Rinv_0_lt_compat.
  assert (0 < circ_r alpha w ^ 2) by (apply pow_lt; auto). lra.
Qed.
Lemma skewness_api alpha w m : valid_sample alpha w -> circ_mean alpha w = Fin m ->
  circ_skewness (smp alpha w) =
    (sample_sum (fun a => sin (2 * (a - m))) alpha w / sample_size alpha w) / Rpower (1 - circ_r alpha w) (3/2) /\
  circ_kurtosis (smp alpha w) =
    (sample_sum (fun a => cos (2 * (a - m))) alpha w / sample_size alpha w - circ_r alpha w ^ 4)
      / (1 - circ_r alpha w) ^ 2.
Proof.
  intros V E. pose proof (smp_pos _ _ V) as P. destruct (circ_mean_defined _ _ _ E) as [_ ->].
  rewrite skewness_eq, kurtosis_eq by auto. rewrite !sample_sum_eq, sample_size_eq.
  unfold circ_r. fold (smp alpha w). split; reflexivity.
Qed.
Lemma dbl_map (alpha : list R) (f g : R -> R) (w : option (list R)) :
  (forall a, same_dir (2 * f a) (g (2 * a))) ->
  turned (map (fun a => 2 * a) (map f alpha)) (map g (map (fun a => 2 * a) alpha)).
Proof.
  intros H. unfold turned. rewrite !map_map. induction alpha; simpl; constructor; auto.
Qed.
Lemma dbl_shift t a : same_dir (2 * (a + t)) (2 * a + 2 * t).
Proof. exists 0%Z. simpl. ring. Qed.
Lemma dbl_opp a : same_dir (2 * - a) (- (2 * a)).
Proof. exists 0%Z. simpl. ring. Qed.
Lemma moments_rot alpha w t m : valid_sample alpha w -> circ_mean alpha w = Fin m ->
  circ_dispersion (smp (map (fun a => a + t) alpha) w) = circ_dispersion (smp alpha w) /\
  circ_skewness (smp (map (fun a => a + t) alpha) w) = circ_skewness (smp alpha w) /\
  circ_kurtosis (smp (map (fun a => a + t) alpha) w) = circ_kurtosis (smp alpha w).
Proof.
  intros V E. assert (V' : valid_sample (map (fun a => a + t) alpha) w) by (apply valid_map, V).
  destruct (proj2 (circ_mean_rot alpha w t V) m E) as (m' & E' & _ & D).
  assert (Hr : 0 < circ_r alpha w) by (apply circ_mean_defined in E; destruct E; lra).
  assert (R : circ_r (map (fun a => a + t) alpha) w = circ_r alpha w) by (apply (proj1 circ_r_invariant), V).
  assert (Hr' : 0 < circ_r (map (fun a => a + t) alpha) w) by (rewrite R; exact Hr).
  split.
  - rewrite (proj1 (dispersion_api _ w V' Hr')), (proj1 (dispersion_api _ w V Hr)), R.
    do 2 f_equal.
    rewrite (proj1 (proj2 (proj2 circ_r_invariant)) _ _ w
               (dbl_map alpha (fun a => a + t) (fun b => b + 2 * t) w (dbl_shift t))).
    apply (proj1 circ_r_invariant). apply valid_map, V.
  - destruct (skewness_api _ _ _ V E) as [-> ->]. destruct (skewness_api _ _ _ V' E') as [-> ->].
    rewrite R. rewrite !sample_sum_eq, !sample_size_eq, smp_shift, wtotal_rot. unfold rot. rewrite !map_map. cbn [fst snd].
    destruct D as [k Hk].
    split; [f_equal; f_equal; f_equal; apply map_ext; intros x; f_equal|
            f_equal; f_equal; f_equal; f_equal; apply map_ext; intros x; f_equal].
    + apply same_dir_sin. exists (- 2 * k)%Z. rewrite mult_IZR, Hk. simpl. ring.
    + apply same_dir_cos. exists (- 2 * k)%Z. rewrite mult_IZR, Hk. simpl. ring.
Qed.
Lemma moments_refl alpha w m : valid_sample alpha w -> circ_mean alpha w = Fin m ->
  circ_dispersion (smp (map Ropp alpha) w) = circ_dispersion (smp alpha w) /\
  circ_skewness (smp (map Ropp alpha) w) = - circ_skewness (smp alpha w) /\
  circ_kurtosis (smp (map Ropp alpha) w) = circ_kurtosis (smp alpha w).
Proof.
  intros V E. assert (V' : valid_sample (map Ropp alpha) w) by (apply valid_map, V).
  destruct (proj2 (circ_mean_reflect alpha w V) m E) as (m' & E' & _ & D).
  assert (Hr : 0 < circ_r alpha w) by (apply circ_mean_defined in E; destruct E; lra).
  assert (R : circ_r (map Ropp alpha) w = circ_r alpha w) by (apply (proj1 (proj2 circ_r_invariant)), V).
  assert (Hr' : 0 < circ_r (map Ropp alpha) w) by (rewrite R; exact Hr).
  split.
  - rewrite (proj1 (dispersion_api _ w V' Hr')), (proj1 (dispersion_api _ w V Hr)), R.
    do 2 f_equal.
    rewrite (proj1 (proj2 (proj2 circ_r_invariant)) _ _ w
               (dbl_map alpha Ropp Ropp w dbl_opp)).
    apply (proj1 (proj2 circ_r_invariant)). apply valid_map, V.
  - destruct (skewness_api _ _ _ V E) as [-> ->]. destruct (skewness_api _ _ _ V' E') as [-> ->].
    rewrite R. rewrite !sample_sum_eq, !sample_size_eq, smp_opp, wtotal_refl. unfold refl. rewrite !map_map. cbn [fst snd].
    destruct D as [k Hk].
    split.
    + assert (Z : Rsum (map (fun x => snd x * sin (2 * (- fst x - m'))) (smp alpha w)) =
                  - Rsum (map (fun x => snd x * sin (2 * (fst x - m))) (smp alpha w))).
      { induction (smp alpha w) as [|x l IH]; [simpl; ring|]. cbn [map]. rewrite !Rsum_cons, IH.
        assert (sin (2 * (- fst x - m')) = - sin (2 * (fst x - m))).
        { rewrite <- sin_neg. apply same_dir_sin. exists (- 2 * k)%Z. rewrite mult_IZR, Hk. simpl. ring. }
        rewrite H. ring. }
      rewrite Z. unfold Rdiv. ring.
    + f_equal; f_equal; f_equal; f_equal; apply map_ext; intros x; f_equal.
      rewrite <- (cos_neg (2 * (fst x - m))).
      apply same_dir_cos. exists (- 2 * k)%Z. rewrite mult_IZR, Hk. simpl. ring.
Qed.
Lemma moments_char alpha w m : valid_sample alpha w -> circ_mean alpha w = Fin m -> circ_r alpha w < 1 ->
  circ_dispersion (smp alpha w) = (1 - circ_r (map (fun a => 2 * a) alpha) w) / (2 * circ_r alpha w ^ 2) /\
  0 <= circ_dispersion (smp alpha w) /\
  circ_skewness (smp alpha w) =
    (sample_sum (fun a => sin (2 * (a - m))) alpha w / sample_size alpha w) / Rpower (1 - circ_r alpha w) (3/2) /\
  circ_kurtosis (smp alpha w) =
    (sample_sum (fun a => cos (2 * (a - m))) alpha w / sample_size alpha w - circ_r alpha w ^ 4)
      / (1 - circ_r alpha w) ^ 2.
Proof.
  intros V E _. assert (Hr : 0 < circ_r alpha w) by (apply circ_mean_defined in E; destruct E; lra).
  destruct (dispersion_api alpha w V Hr). destruct (skewness_api alpha w m V E). auto.
Qed.
Lemma moments_sym alpha w t m : valid_sample alpha w -> circ_mean alpha w = Fin m -> circ_r alpha w < 1 ->
  (circ_dispersion (smp (map (fun a => a + t) alpha) w) = circ_dispersion (smp alpha w) /\
   circ_skewness (smp (map (fun a => a + t) alpha) w) = circ_skewness (smp alpha w) /\
   circ_kurtosis (smp (map (fun a => a + t) alpha) w) = circ_kurtosis (smp alpha w)) /\
  (circ_dispersion (smp (map Ropp alpha) w) = circ_dispersion (smp alpha w) /\
   circ_skewness (smp (map Ropp alpha) w) = - circ_skewness (smp alpha w) /\
   circ_kurtosis (smp (map Ropp alpha) w) = circ_kurtosis (smp alpha w)).
Proof.
  intros V E _. split; [apply moments_rot with m; auto|apply moments_refl with m; auto].
Qed.
Lemma ex79 : valid_sample [0; PI / 2] None /\ circ_mean [0; PI / 2] None = Fin (PI / 4) /\
  0 < circ_r [0; PI / 2] None < 1.
Proof.
  pose proof PI2_3_2 as P3.
  split; [apply valid_none; discriminate|].
  assert (C : compute_C (smp [0; PI / 2] None) 1 0 = 1 / 2).
  { rewrite compute_C_eq, Csum_none, wtotal_none. simpl. rewrite cos_0, cos_PI2. field. }
  assert (S : compute_S (smp [0; PI / 2] None) 1 0 = 1 / 2).
  { rewrite compute_S_eq, Ssum_none, wtotal_none. simpl. rewrite sin_0, sin_PI2. field. }
  assert (Rr : 1 / 2 < circ_r [0; PI / 2] None < 1).
  { unfold circ_r, circ_r_s. fold (smp [0; PI / 2] None). rewrite C, S.
    split; [rewrite <- (sqrt_square (1 / 2)) at 1 by lra|rewrite <- sqrt_1 at 3]; apply sqrt_lt_1_alt; lra. }
  split; [|lra].
  destruct (circ_mean_cases [0; PI / 2] None) as [[H _]|[_ H]]; [lra|]. rewrite H. f_equal.
  unfold mean_dir. rewrite C, S. apply angmod0_unique; [lra|]. apply same_dir_sym.
  apply arctan2_unique with (1 / 2 * sqrt 2).
  - pose proof Rlt_sqrt2_0. lra.
  - rewrite cos_PI4. pose proof Rlt_sqrt2_0. field. lra.
  - rewrite sin_PI4. pose proof Rlt_sqrt2_0. field. lra.
Qed.
