From Verif Require Import Prelude NpModel NpProofs CircleSpec UtilsModel UtilsProofs DescModel.

(** * Resultant vector of a weighted sample *)
Definition Csum (s : wsample) : R := Rsum (map (fun x => snd x * cos (fst x)) s).
Definition Ssum (s : wsample) : R := Rsum (map (fun x => snd x * sin (fst x)) s).
Definition Rlen (s : wsample) : R := sqrt (Csum s * Csum s + Ssum s * Ssum s).

Lemma compute_C_eq s : compute_C s 1 0 = Csum s / wtotal s.
Proof.
  unfold compute_C, Csum. f_equal. apply Rsum_map_ext. intros x _.
  rewrite Rminus_0_r, Rmult_1_l. reflexivity.
Qed.
Lemma compute_S_eq s : compute_S s 1 0 = Ssum s / wtotal s.
Proof.
  unfold compute_S, Ssum. f_equal. apply Rsum_map_ext. intros x _.
  rewrite Rminus_0_r, Rmult_1_l. reflexivity.
Qed.
Lemma circ_r_s_eq s : 0 < wtotal s -> circ_r_s s = Rlen s / wtotal s.
Proof.
  intros H. unfold circ_r_s, Rlen. rewrite compute_C_eq, compute_S_eq.
  replace ((Csum s / wtotal s) ^ 2 + (Ssum s / wtotal s) ^ 2)
    with ((Csum s * Csum s + Ssum s * Ssum s) / (wtotal s * wtotal s)) by (field; lra).
  rewrite sqrt_div_alt by (apply Rmult_lt_0_compat; lra).
  rewrite sqrt_square by lra. reflexivity.
Qed.
Lemma Rlen_nonneg s : 0 <= Rlen s.
Proof. apply sqrt_pos. Qed.
Lemma Rlen_sqr s : Rlen s * Rlen s = Csum s * Csum s + Ssum s * Ssum s.
Proof.
  unfold Rlen. apply sqrt_sqrt.
  pose proof (Rle_0_sqr (Csum s)); pose proof (Rle_0_sqr (Ssum s)); unfold Rsqr in *; lra.
Qed.
Lemma circ_r_s_nonneg s : 0 <= circ_r_s s.
Proof. apply sqrt_pos. Qed.

(** Projection of the resultant on direction t. *)
Lemma proj_eq s t :
  Csum s * cos t + Ssum s * sin t = Rsum (map (fun x => snd x * cos (fst x - t)) s).
Proof.
  unfold Csum, Ssum. induction s as [|x s IH]; simpl; [ring|].
  rewrite <- IH, cos_minus. ring.
Qed.
Lemma orth_eq s t :
  Ssum s * cos t - Csum s * sin t = Rsum (map (fun x => snd x * sin (fst x - t)) s).
Proof.
  unfold Csum, Ssum. induction s as [|x s IH]; simpl; [ring|].
  rewrite <- IH, sin_minus. ring.
Qed.
(** Polar form of the resultant. *)
Lemma Rlen_polar s :
  Csum s = Rlen s * cos (arctan2 (Ssum s) (Csum s)) /\
  Ssum s = Rlen s * sin (arctan2 (Ssum s) (Csum s)).
Proof.
  destruct (Req_dec (Csum s) 0) as [Zc|Nc]; [destruct (Req_dec (Ssum s) 0) as [Zs|Ns]|].
  - assert (Rlen s = 0) by (unfold Rlen; rewrite Zc, Zs; replace (0 * 0 + 0 * 0) with 0 by ring; apply sqrt_0).
    rewrite H, Zc, Zs. lra.
  - apply arctan2_polar. auto.
  - apply arctan2_polar. auto.
Qed.
Definition posw (s : wsample) : Prop := forall x, In x s -> 0 <= snd x.

Lemma Rsum_cos_le s t : posw s ->
  Rsum (map (fun x => snd x * cos (fst x - t)) s) <= wtotal s.
Proof.
  intros H. unfold wtotal. apply Rsum_map_le. intros x Hx.
  pose proof (COS_bound (fst x - t)). specialize (H x Hx). nra.
Qed.
Lemma Rlen_proj s :
  Rlen s = Rsum (map (fun x => snd x * cos (fst x - arctan2 (Ssum s) (Csum s))) s).
Proof.
  rewrite <- proj_eq. destruct (Rlen_polar s) as [E1 E2].
  set (t := arctan2 (Ssum s) (Csum s)) in *. rewrite E1, E2.
  pose proof (sin2_cos2 t) as P. unfold Rsqr in P.
  replace (Rlen s * cos t * cos t + Rlen s * sin t * sin t)
    with (Rlen s * (sin t * sin t + cos t * cos t)) by ring. rewrite P. ring.
Qed.
Lemma Rlen_le_total s : posw s -> Rlen s <= wtotal s.
Proof. intros H. rewrite Rlen_proj. apply Rsum_cos_le, H. Qed.

Lemma circ_r_s_range s : posw s -> 0 < wtotal s -> 0 <= circ_r_s s <= 1.
Proof.
  intros H Hw. split; [apply circ_r_s_nonneg|].
  rewrite circ_r_s_eq by exact Hw.
  apply Rmult_le_reg_r with (wtotal s); [exact Hw|].
  unfold Rdiv. rewrite Rmult_assoc, Rinv_l by lra. pose proof (Rlen_le_total s H). lra.
Qed.

(** * Equality case *)
Lemma circ_r_s_one s : posw s -> 0 < wtotal s ->
  (circ_r_s s = 1 <->
   exists t, forall x, In x s -> 0 < snd x -> same_dir (fst x) t).
Proof.
  intros H Hw. rewrite circ_r_s_eq by exact Hw. split.
  - intros E. assert (E1 : Rlen s = wtotal s) by (apply Rmult_eq_reg_r with (/ wtotal s);
      [|apply Rinv_neq_0_compat; lra]; rewrite Rinv_r by lra; exact E).
    set (t := arctan2 (Ssum s) (Csum s)). exists t.
    rewrite Rlen_proj in E1. fold t in E1. unfold wtotal in E1.
    assert (D : Rsum (map (fun x => snd x - snd x * cos (fst x - t)) s) = 0).
    { rewrite Rsum_map_minus, E1. ring. }
    intros x Hx Hp.
    assert (Z : snd x - snd x * cos (fst x - t) = 0).
    { apply (Rsum_map_0 (fun x => snd x - snd x * cos (fst x - t)) s); auto.
      intros y Hy. pose proof (COS_bound (fst y - t)). specialize (H y Hy). nra. }
    assert (cos (fst x - t) = 1) by (apply Rmult_eq_reg_l with (snd x); lra).
    destruct (cos_eq_1 _ H0) as [k K]. exists k. lra.
  - intros [t Ht].
    assert (E : Rsum (map (fun x => snd x * cos (fst x - t)) s) = wtotal s).
    { unfold wtotal. apply Rsum_map_ext. intros x Hx.
      destruct (Req_dec (snd x) 0) as [Z|N]; [rewrite Z; ring|].
      pose proof (H x Hx). destruct (Ht x Hx ltac:(lra)) as [k K].
      replace (fst x - t) with (0 + 2 * PI * IZR k) by lra. rewrite cos_turns, cos_0. ring. }
    assert (wtotal s <= Rlen s).
    { rewrite <- E, <- proj_eq.
      destruct (Rlen_polar s) as [E1 E2]. set (u := arctan2 (Ssum s) (Csum s)) in *.
      rewrite E1, E2.
      replace (Rlen s * cos u * cos t + Rlen s * sin u * sin t) with (Rlen s * cos (u - t))
        by (rewrite cos_minus; ring).
      pose proof (COS_bound (u - t)). pose proof (Rlen_nonneg s). nra. }
    pose proof (Rlen_le_total s H). replace (Rlen s) with (wtotal s) by lra.
    field. lra.
Qed.

(** * Invariance of the resultant *)
Definition rot (t : R) (s : wsample) : wsample := map (fun x => (fst x + t, snd x)) s.
Definition refl (s : wsample) : wsample := map (fun x => (- fst x, snd x)) s.
Definition scalew (c : R) (s : wsample) : wsample := map (fun x => (fst x, c * snd x)) s.

Lemma wtotal_rot t s : wtotal (rot t s) = wtotal s.
Proof. unfold wtotal, rot. rewrite map_map. reflexivity. Qed.
Lemma wtotal_refl s : wtotal (refl s) = wtotal s.
Proof. unfold wtotal, refl. rewrite map_map. reflexivity. Qed.
Lemma wtotal_scale c s : wtotal (scalew c s) = c * wtotal s.
Proof. unfold wtotal, scalew. rewrite map_map. simpl. rewrite Rsum_map_scal. reflexivity. Qed.
Lemma Csum_rot t s : Csum (rot t s) = Csum s * cos t - Ssum s * sin t.
Proof.
  unfold Csum, Ssum, rot. induction s as [|x s IH]; simpl; [ring|].
  rewrite IH, cos_plus. ring.
Qed.
Lemma Ssum_rot t s : Ssum (rot t s) = Ssum s * cos t + Csum s * sin t.
Proof.
  unfold Csum, Ssum, rot. induction s as [|x s IH]; simpl; [ring|].
  rewrite IH, sin_plus. ring.
Qed.
Lemma Rlen_rot t s : Rlen (rot t s) = Rlen s.
Proof.
  unfold Rlen. f_equal. rewrite Csum_rot, Ssum_rot.
  pose proof (sin2_cos2 t) as P. unfold Rsqr in P.
  replace ((Csum s * cos t - Ssum s * sin t) * (Csum s * cos t - Ssum s * sin t) +
           (Ssum s * cos t + Csum s * sin t) * (Ssum s * cos t + Csum s * sin t))
    with ((Csum s * Csum s + Ssum s * Ssum s) * (sin t * sin t + cos t * cos t)) by ring.
  rewrite P. ring.
Qed.
Lemma Csum_refl s : Csum (refl s) = Csum s.
Proof. unfold Csum, refl. induction s as [|x s IH]; simpl; [ring|]. rewrite IH, cos_neg. ring. Qed.
Lemma Ssum_refl s : Ssum (refl s) = - Ssum s.
Proof. unfold Ssum, refl. induction s as [|x s IH]; simpl; [ring|]. rewrite IH, sin_neg. ring. Qed.
Lemma Csum_scale c s : Csum (scalew c s) = c * Csum s.
Proof. unfold Csum, scalew. induction s as [|x s IH]; simpl; [ring|]. rewrite IH. ring. Qed.
Lemma Ssum_scale c s : Ssum (scalew c s) = c * Ssum s.
Proof. unfold Ssum, scalew. induction s as [|x s IH]; simpl; [ring|]. rewrite IH. ring. Qed.

Lemma compute_perm s1 s2 : Permutation s1 s2 ->
  Csum s1 = Csum s2 /\ Ssum s1 = Ssum s2 /\ wtotal s1 = wtotal s2.
Proof.
  intros P. unfold Csum, Ssum, wtotal.
  repeat split; apply Rsum_perm, Permutation_map, P.
Qed.
(** Samples that agree observation by observation up to whole turns. *)
Definition same_dirs (s1 s2 : wsample) : Prop :=
  Forall2 (fun x y => same_dir (fst x) (fst y) /\ snd x = snd y) s1 s2.
Lemma compute_dirs s1 s2 : same_dirs s1 s2 ->
  Csum s1 = Csum s2 /\ Ssum s1 = Ssum s2 /\ wtotal s1 = wtotal s2.
Proof.
  unfold same_dirs, Csum, Ssum, wtotal.
  induction 1 as [|x y s1 s2 [Hd Hw] H IH]; simpl; [auto|].
  destruct IH as (I1 & I2 & I3).
  rewrite I1, I2, I3, Hw, (same_dir_cos _ _ Hd), (same_dir_sin _ _ Hd). auto.
Qed.
(** Everything the code computes from a sample goes through Cbar and Sbar. *)
Lemma circ_r_s_CS s1 s2 :
  compute_C s1 1 0 = compute_C s2 1 0 -> compute_S s1 1 0 = compute_S s2 1 0 ->
  circ_r_s s1 = circ_r_s s2.
Proof. unfold circ_r_s. intros -> ->. reflexivity. Qed.
Lemma CS_eq s1 s2 :
  Csum s1 = Csum s2 /\ Ssum s1 = Ssum s2 /\ wtotal s1 = wtotal s2 ->
  compute_C s1 1 0 = compute_C s2 1 0 /\ compute_S s1 1 0 = compute_S s2 1 0.
Proof. intros (H1 & H2 & H3). rewrite !compute_C_eq, !compute_S_eq, H1, H2, H3. auto. Qed.

Lemma circ_r_rot t s : 0 < wtotal s -> circ_r_s (rot t s) = circ_r_s s.
Proof.
  intros H. rewrite !circ_r_s_eq by (rewrite ?wtotal_rot; exact H).
  rewrite Rlen_rot, wtotal_rot. reflexivity.
Qed.
Lemma circ_r_refl s : circ_r_s (refl s) = circ_r_s s.
Proof.
  unfold circ_r_s. rewrite !compute_C_eq, !compute_S_eq, Csum_refl, Ssum_refl, wtotal_refl.
  f_equal. unfold Rdiv. ring.
Qed.
Lemma CS_scale c s : 0 < c -> 0 < wtotal s ->
  compute_C (scalew c s) 1 0 = compute_C s 1 0 /\ compute_S (scalew c s) 1 0 = compute_S s 1 0.
Proof.
  intros Hc Hw. rewrite !compute_C_eq, !compute_S_eq, Csum_scale, Ssum_scale, wtotal_scale.
  split; field; lra.
Qed.

(** * Mean direction *)
Lemma isclose_0 r : isclose r 0 = Rleb (Rabs r) (/ 100000000).
Proof. unfold isclose, isclose_tol. rewrite Rminus_0_r, Rabs_R0. f_equal. ring. Qed.
Lemma isclose12_0 r : isclose12 r 0 = Rleb (Rabs r) (/ 1000000000000).
Proof. unfold isclose12, isclose_tol. rewrite Rminus_0_r, Rabs_R0. f_equal. ring. Qed.

(** Outside the tolerance the resultant is non-zero and the mean is its angle. *)
Lemma mean_angle s : 0 < wtotal s -> 0 < circ_r_s s ->
  Csum s = Rlen s * cos (arctan2 (compute_S s 1 0) (compute_C s 1 0)) /\
  Ssum s = Rlen s * sin (arctan2 (compute_S s 1 0) (compute_C s 1 0)) /\ 0 < Rlen s.
Proof.
  intros Hw Hr.
  assert (Hl : 0 < Rlen s).
  { rewrite circ_r_s_eq in Hr by exact Hw. unfold Rdiv in Hr.
    pose proof (Rlen_nonneg s). destruct (Req_dec (Rlen s) 0) as [Z|N]; [|lra].
    rewrite Z, Rmult_0_l in Hr. lra. }
  destruct (Rlen_polar s) as [E1 E2].
  assert (D : same_dir (arctan2 (compute_S s 1 0) (compute_C s 1 0)) (arctan2 (Ssum s) (Csum s))).
  { apply arctan2_unique with (Rlen s / wtotal s).
    - apply Rdiv_lt_0_compat; assumption.
    - rewrite compute_C_eq, E1 at 1. field. lra.
    - rewrite compute_S_eq, E2 at 1. field. lra. }
  rewrite (same_dir_cos _ _ D), (same_dir_sin _ _ D). auto.
Qed.
Definition mean_dir (s : wsample) : R := angmod0 (arctan2 (compute_S s 1 0) (compute_C s 1 0)).
Lemma mean_dir_polar s : 0 < wtotal s -> 0 < circ_r_s s ->
  Csum s = Rlen s * cos (mean_dir s) /\ Ssum s = Rlen s * sin (mean_dir s) /\ 0 < Rlen s.
Proof.
  intros Hw Hr. destruct (mean_angle s Hw Hr) as (E1 & E2 & H). unfold mean_dir.
  pose proof (angmod0_same_dir (arctan2 (compute_S s 1 0) (compute_C s 1 0))) as D.
  rewrite (same_dir_cos _ _ D), (same_dir_sin _ _ D). auto.
Qed.
Lemma mean_dir_unique s t : 0 < wtotal s -> 0 < circ_r_s s ->
  Csum s = Rlen s * cos t -> Ssum s = Rlen s * sin t -> same_dir (mean_dir s) t.
Proof.
  intros Hw Hr H1 H2. destruct (mean_dir_polar s Hw Hr) as (E1 & E2 & H).
  apply cos_sin_same_dir; apply Rmult_eq_reg_l with (Rlen s); lra.
Qed.
Lemma circ_mean_s_cases s :
  (circ_r_s s <= / 100000000 /\ circ_mean_s s = NaN) \/
  (/ 100000000 < circ_r_s s /\ circ_mean_s s = Fin (mean_dir s)).
Proof.
  unfold circ_mean_s, mean_dir. rewrite isclose_0, Rabs_right by (apply Rle_ge, circ_r_s_nonneg).
  destruct (Rleb_spec (circ_r_s s) (/ 100000000)); [left|right]; split; auto; lra.
Qed.
Lemma circ_mean_and_r_s_cases s :
  (circ_r_s s <= / 1000000000000 /\ circ_mean_and_r_s s = (NaN, circ_r_s s)) \/
  (/ 1000000000000 < circ_r_s s /\ circ_mean_and_r_s s = (Fin (mean_dir s), circ_r_s s)).
Proof.
  unfold circ_mean_and_r_s, mean_dir. rewrite isclose12_0, Rabs_right by (apply Rle_ge, circ_r_s_nonneg).
  destruct (Rleb_spec (circ_r_s s) (/ 1000000000000)); [left|right]; split; auto; lra.
Qed.
Lemma mean_dir_range s : 0 <= mean_dir s < 2 * PI.
Proof. apply angmod0_range. Qed.

Lemma mean_dir_rot t s : 0 < wtotal s -> 0 < circ_r_s s ->
  mean_dir (rot t s) = angmod0 (mean_dir s + t).
Proof.
  intros Hw Hr. symmetry. apply angmod0_unique; [apply mean_dir_range|].
  apply mean_dir_unique.
  - rewrite wtotal_rot; exact Hw.
  - rewrite circ_r_rot; assumption.
  - rewrite Csum_rot, Rlen_rot, cos_plus.
    destruct (mean_dir_polar s Hw Hr) as (E1 & E2 & _). rewrite E1, E2. ring.
  - rewrite Ssum_rot, Rlen_rot, sin_plus.
    destruct (mean_dir_polar s Hw Hr) as (E1 & E2 & _). rewrite E1, E2. ring.
Qed.
Lemma Rlen_refl s : Rlen (refl s) = Rlen s.
Proof. unfold Rlen. rewrite Csum_refl, Ssum_refl. f_equal. ring. Qed.
Lemma mean_dir_refl s : 0 < wtotal s -> 0 < circ_r_s s ->
  mean_dir (refl s) = angmod0 (- mean_dir s).
Proof.
  intros Hw Hr. symmetry. apply angmod0_unique; [apply mean_dir_range|].
  destruct (mean_dir_polar s Hw Hr) as (E1 & E2 & _).
  apply mean_dir_unique.
  - rewrite wtotal_refl; exact Hw.
  - rewrite circ_r_refl; exact Hr.
  - rewrite Csum_refl, Rlen_refl, cos_neg. exact E1.
  - rewrite Ssum_refl, Rlen_refl, sin_neg. lra.
Qed.
Lemma circ_mean_s_CS s1 s2 :
  compute_C s1 1 0 = compute_C s2 1 0 /\ compute_S s1 1 0 = compute_S s2 1 0 ->
  circ_mean_s s1 = circ_mean_s s2 /\ circ_mean_and_r_s s1 = circ_mean_and_r_s s2 /\
  circ_r_s s1 = circ_r_s s2.
Proof.
  intros [H1 H2]. pose proof (circ_r_s_CS _ _ H1 H2) as H3.
  unfold circ_mean_s, circ_mean_and_r_s. rewrite H1, H2, H3. auto.
Qed.

(** * Optimality of the mean direction *)
Lemma proj_mean s t : 0 < wtotal s -> 0 < circ_r_s s ->
  Rsum (map (fun x => snd x * cos (fst x - t)) s) = Rlen s * cos (mean_dir s - t).
Proof.
  intros Hw Hr. rewrite <- proj_eq.
  destruct (mean_dir_polar s Hw Hr) as (E1 & E2 & _). rewrite E1, E2, cos_minus. ring.
Qed.
Lemma orth_mean s t : 0 < wtotal s -> 0 < circ_r_s s ->
  Rsum (map (fun x => snd x * sin (fst x - t)) s) = Rlen s * sin (mean_dir s - t).
Proof.
  intros Hw Hr. rewrite <- orth_eq.
  destruct (mean_dir_polar s Hw Hr) as (E1 & E2 & _). rewrite E1, E2, sin_minus. ring.
Qed.
