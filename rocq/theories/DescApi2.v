(** Lemmas for C14-C18 and the bin-corrected variance. *)
From Verif Require Import Prelude NpModel NpProofs CircleSpec UtilsModel UtilsProofs
  DescModel DescProofs DescSpec DescApi.

(** * C14 *)
Lemma valid_none alpha : alpha <> [] -> valid_sample alpha None.
Proof. intros H. split; auto. Qed.
Lemma wtotal_none l : wtotal (smp l None) = INR (length l).
Proof.
  rewrite wtotal_smp by apply repeat_length. simpl. rewrite Rsum_repeat. ring.
Qed.
Lemma Csum_none l : Csum (smp l None) = Rsum (map cos l).
Proof. unfold Csum. apply (ones_sum cos). Qed.
Lemma Ssum_none l : Ssum (smp l None) = Rsum (map sin l).
Proof. unfold Ssum. apply (ones_sum sin). Qed.
Lemma group_polar g m r : g <> [] -> circ_mean_and_r g None = (Fin m, r) ->
  cos m * r = Rsum (map cos g) / INR (length g) /\
  sin m * r = Rsum (map sin g) / INR (length g).
Proof.
  intros Hg E. pose proof (valid_none g Hg) as V. pose proof (smp_pos _ _ V) as W.
  unfold circ_mean_and_r in E. fold (smp g None) in E.
  destruct (circ_mean_and_r_s_cases (smp g None)) as [[H1 H2]|[H1 H2]];
    rewrite H2 in E; [discriminate|]. injection E as <- <-.
  assert (H0 : 0 < circ_r_s (smp g None)) by lra.
  destruct (mean_dir_polar _ W H0) as (P1 & P2 & P3).
  rewrite circ_r_s_eq by exact W. rewrite wtotal_none in *.
  rewrite <- Csum_none, <- Ssum_none, P1, P2 at 1. split; field; lra.
Qed.
Definition fval (m : fl) : R := match m with Fin x => x | _ => 0 end.
Lemma concat_length_eq {A} (gs : list (list A)) k :
  Forall (fun g => length g = k) gs -> length (concat gs) = (length gs * k)%nat.
Proof. induction 1; simpl; auto. rewrite app_length, H, IHForall. reflexivity. Qed.
Lemma Rsum_concat {A} (f : A -> R) gs :
  Rsum (map f (concat gs)) = Rsum (map (fun g => Rsum (map f g)) gs).
Proof. induction gs as [|g gs IH]; simpl; auto. rewrite map_app, Rsum_app, IH. reflexivity. Qed.
Lemma groups_sum f h gs k : (0 < k)%nat ->
  Forall (fun g => length g = k /\ exists m r, circ_mean_and_r g None = (Fin m, r)) gs ->
  (forall g m r, g <> [] -> circ_mean_and_r g None = (Fin m, r) ->
     f m r = Rsum (map h g) / INR (length g)) ->
  Rsum (map2 f (map (fun m => match m with Fin x => x | _ => 0 end)
                  (map fst (map (fun g => circ_mean_and_r g None) gs)))
               (map snd (map (fun g => circ_mean_and_r g None) gs)))
  = Rsum (map h (concat gs)) / INR k.
Proof.
  intros Hk H Hf. rewrite Rsum_concat. unfold map2.
  induction H as [|g gs (Hl & m & r & E) H IH]; simpl in *.
  - unfold Rdiv. ring.
  - rewrite E. simpl. rewrite IH. rewrite (Hf g m r); auto.
    + rewrite Hl. unfold Rdiv. ring.
    + destruct g; simpl in *; [lia|discriminate].
Qed.
Lemma of_circs_pooled gs k : gs <> [] -> (0 < k)%nat ->
  Forall (fun g => length g = k) gs ->
  Forall (fun g => is_fin (fst (circ_mean_and_r g None))) gs ->
  circ_mean_and_r_of_circs gs =
  Ok (fst (circ_mean_and_r (concat gs) None), Fin (snd (circ_mean_and_r (concat gs) None))).
Proof.
  intros Hn Hk HL HF.
  assert (HB : Forall (fun g => length g = k /\ exists m r, circ_mean_and_r g None = (Fin m, r)) gs).
  { rewrite Forall_forall in *. intros g Hg. split; [apply HL, Hg|].
    destruct (HF g Hg) as [m Em]. destruct (circ_mean_and_r g None) as [m' r'].
    simpl in Em. subst. eauto. }
  assert (Kp : 0 < INR k) by (apply lt_0_INR; lia).
  assert (Gp : 0 < INR (length gs)) by (apply lt_0_INR; destruct gs; simpl; [congruence|lia]).
  assert (NE : concat gs <> []).
  { intros E. apply (f_equal (@length R)) in E. rewrite (concat_length_eq gs k HL) in E.
    simpl in E. destruct gs; simpl in *; [congruence|lia]. }
  set (mr := map (fun g => circ_mean_and_r g None) gs).
  assert (EX : mean (map2 (fun m r => cos m * r)
      (map (fun m => match m with Fin x => x | _ => 0 end) (map fst mr)) (map snd mr))
      = compute_C (smp (concat gs) None) 1 0).
  { unfold mean, mr. rewrite (groups_sum (fun m r => cos m * r) cos gs k Hk HB)
      by (intros g m r Hg E; apply (group_polar g m r Hg E)).
    rewrite compute_C_eq, Csum_none, wtotal_none, (concat_length_eq gs k HL), mult_INR.
    unfold map2. rewrite map_length, combine_length, !map_length, Nat.min_id. field. lra. }
  assert (EY : mean (map2 (fun m r => sin m * r)
      (map (fun m => match m with Fin x => x | _ => 0 end) (map fst mr)) (map snd mr))
      = compute_S (smp (concat gs) None) 1 0).
  { unfold mean, mr. rewrite (groups_sum (fun m r => sin m * r) sin gs k Hk HB)
      by (intros g m r Hg E; apply (group_polar g m r Hg E)).
    rewrite compute_S_eq, Ssum_none, wtotal_none, (concat_length_eq gs k HL), mult_INR.
    unfold map2. rewrite map_length, combine_length, !map_length, Nat.min_id. field. lra. }
  assert (EH : hypot (compute_C (smp (concat gs) None) 1 0) (compute_S (smp (concat gs) None) 1 0)
    = circ_r_s (smp (concat gs) None)).
  { unfold hypot, circ_r_s. f_equal. ring. }
  unfold circ_mean_and_r_of_circs. destruct gs as [|g0 gs']; [congruence|].
  fold mr. unfold circ_mean_and_r_of_means.
  replace (Nat.eqb (length (map fst mr)) (length (map snd mr))) with true
    by (symmetry; apply Nat.eqb_eq; rewrite !map_length; reflexivity).
  replace (Nat.eqb (length (map fst mr)) 0) with false by reflexivity.
  cbn [negb orb].
  replace (forallb (fun m => match m with Fin _ => true | _ => false end) (map fst mr)) with true.
  - cbv zeta. rewrite EX, EY, EH. unfold circ_mean_and_r, circ_mean_and_r_s.
    fold (smp (concat (g0 :: gs')) None).
    destruct (isclose12 (circ_r_s (smp (concat (g0 :: gs')) None)) 0); reflexivity.
  - symmetry. apply forallb_forall. intros m Hm. unfold mr in Hm. rewrite map_map in Hm.
    apply in_map_iff in Hm. destruct Hm as (g & <- & Hg). rewrite Forall_forall in HF.
    destruct (HF g Hg) as [x ->]. reflexivity.
Qed.
Lemma of_circs_single g : g <> [] -> is_fin (fst (circ_mean_and_r g None)) ->
  circ_mean_and_r_of_circs [g] =
  Ok (fst (circ_mean_and_r g None), Fin (snd (circ_mean_and_r g None))).
Proof.
  intros Hg Hf. rewrite (of_circs_pooled [g] (length g)).
  - simpl. rewrite app_nil_r. reflexivity.
  - discriminate.
  - destruct g; simpl; [congruence|lia].
  - auto.
  - auto.
Qed.
Lemma pair_0PI_C : compute_C (smp [0; PI] None) 1 0 = 0.
Proof. rewrite compute_C_eq, Csum_none. simpl. rewrite cos_0, cos_PI. unfold Rdiv. ring. Qed.
Lemma pair_0PI_S : compute_S (smp [0; PI] None) 1 0 = 0.
Proof. rewrite compute_S_eq, Ssum_none. simpl. rewrite sin_0, sin_PI. unfold Rdiv. ring. Qed.
Lemma pair_0PI_r : circ_r_s (smp [0; PI] None) = 0.
Proof. unfold circ_r_s. rewrite pair_0PI_C, pair_0PI_S. replace (0 ^ 2 + 0 ^ 2) with 0 by ring. apply sqrt_0. Qed.
Lemma of_circs_nan_group :
  exists gs : list (list R), Forall (fun g => length g = 2%nat) gs /\
    circ_mean_and_r_of_circs gs = Ok (NaN, NaN) /\
    fst (circ_mean_and_r (concat gs) None) = Fin 0.
Proof.
  exists [[0; PI]; [0; 0]]. split; [repeat constructor|]. split.
  - unfold circ_mean_and_r_of_circs. cbn [map].
    assert (E : circ_mean_and_r [0; PI] None = (NaN, 0)).
    { unfold circ_mean_and_r. fold (smp [0; PI] None).
      destruct (circ_mean_and_r_s_cases (smp [0; PI] None)) as [[H1 H2]|[H1 H2]];
        rewrite pair_0PI_r in *; [exact H2|lra]. }
    rewrite E. reflexivity.
  - set (l := concat [[0; PI]; [0; 0]]). assert (El : l = [0; PI; 0; 0]) by reflexivity.
    assert (EC : compute_C (smp l None) 1 0 = 1/2).
    { rewrite compute_C_eq, Csum_none, wtotal_none, El. simpl. rewrite cos_0, cos_PI. field. }
    assert (ES : compute_S (smp l None) 1 0 = 0).
    { rewrite compute_S_eq, Ssum_none, El. simpl. rewrite sin_0, sin_PI. unfold Rdiv. ring. }
    assert (Er : circ_r_s (smp l None) = 1/2).
    { unfold circ_r_s. rewrite EC, ES. replace ((1/2)^2 + 0^2) with ((1/2)*(1/2)) by field.
      apply sqrt_square. lra. }
    unfold circ_mean_and_r. fold (smp l None).
    destruct (circ_mean_and_r_s_cases (smp l None)) as [[H1 H2]|[H1 H2]];
      rewrite Er in H1; [lra|]. rewrite H2. simpl. unfold mean_dir. rewrite EC, ES.
    f_equal. replace (arctan2 0 (1/2)) with 0.
    + rewrite angmod0_eq. apply pymod_small; pose proof PI_pos; lra.
    + unfold arctan2. destruct (Rltb_spec 0 (1/2)); [|lra].
      unfold Rdiv. rewrite Rmult_0_l, atan_0. reflexivity.
Qed.

(** * C15 *)
Lemma circ_var_r r : circ_var None None (Some r) None = Ok (1 - r).
Proof. reflexivity. Qed.
Lemma circ_std_r r : 0 < r <= 1 ->
  circ_std None None (Some r) None = Ok (Fin (sqrt (- 2 * ln r))).
Proof.
  intros H. unfold circ_std. rewrite circ_var_r. cbn [bind].
  replace (1 - (1 - r)) with r by ring.
  destruct (Rltb_spec r 0); [lra|]. destruct (Reqb_spec r 0); [lra|].
  unfold np_sqrt. destruct (Rltb_spec (- 2 * ln r) 0) as [L|]; [|reflexivity].
  assert (ln r <= 0).
  { destruct (Req_dec r 1) as [->|]; [rewrite ln_1; lra|]. rewrite <- ln_1. left. apply ln_increasing; lra. }
  lra.
Qed.
Lemma ln_le0 r : 0 < r <= 1 -> ln r <= 0.
Proof.
  intros H. destruct (Req_dec r 1) as [->|]; [rewrite ln_1; lra|].
  rewrite <- ln_1. left. apply ln_increasing; lra.
Qed.
Lemma spread_std r : 0 < r <= 1 ->
  exists s, circ_std None None (Some r) None = Ok (Fin s) /\ 0 <= s /\ r = exp (- (s * s) / 2) /\
            (s = 0 <-> r = 1).
Proof.
  intros H. exists (sqrt (- 2 * ln r)). split; [apply circ_std_r, H|].
  pose proof (ln_le0 r H) as L.
  assert (Q : sqrt (- 2 * ln r) * sqrt (- 2 * ln r) = - 2 * ln r) by (apply sqrt_sqrt; lra).
  split; [apply sqrt_pos|]. split.
  - rewrite Q. replace (- (-2 * ln r) / 2) with (ln r) by field. symmetry. apply exp_ln; lra.
  - split; intros E.
    + rewrite E in Q. assert (ln r = 0) by lra. apply ln_inv; [lra|lra|rewrite ln_1; assumption].
    + rewrite E, ln_1, Rmult_0_r. apply sqrt_0.
Qed.
Lemma spread_std_zero : circ_std None None (Some 0) None = Ok PInf.
Proof.
  unfold circ_std. rewrite circ_var_r. cbn [bind]. replace (1 - (1 - 0)) with 0 by ring.
  destruct (Rltb_spec 0 0); [lra|]. destruct (Reqb_spec 0 0); [reflexivity|lra].
Qed.
Lemma angular_std_r r : r <= 1 ->
  angular_std None None (Some r) None = Ok (Fin (sqrt (2 * (1 - r)))).
Proof.
  intros H. unfold angular_std, angular_var. rewrite circ_var_r. cbn [bind]. unfold np_sqrt.
  destruct (Rltb_spec (2 * (1 - r)) 0); [lra|reflexivity].
Qed.
Lemma spread_angular r : r <= 1 ->
  exists v a s, circ_var None None (Some r) None = Ok v /\
    angular_var None None (Some r) None = Ok a /\
    angular_std None None (Some r) None = Ok (Fin s) /\
    a = 2 * v /\ s * s = a /\ 0 <= s.
Proof.
  intros H. exists (1 - r), (2 * (1 - r)), (sqrt (2 * (1 - r))).
  rewrite angular_std_r by exact H.
  repeat split; auto; [apply sqrt_sqrt; lra|apply sqrt_pos].
Qed.
Lemma spread_order r1 r2 : 0 < r1 -> r1 < r2 -> r2 <= 1 ->
  exists v1 v2 a1 a2 s1 s2 t1 t2,
    circ_var None None (Some r1) None = Ok v1 /\ circ_var None None (Some r2) None = Ok v2 /\
    angular_var None None (Some r1) None = Ok a1 /\ angular_var None None (Some r2) None = Ok a2 /\
    angular_std None None (Some r1) None = Ok (Fin s1) /\ angular_std None None (Some r2) None = Ok (Fin s2) /\
    circ_std None None (Some r1) None = Ok (Fin t1) /\ circ_std None None (Some r2) None = Ok (Fin t2) /\
    v2 < v1 /\ a2 < a1 /\ s2 < s1 /\ t2 < t1.
Proof.
  intros H0 H12 H1.
  exists (1 - r1), (1 - r2), (2 * (1 - r1)), (2 * (1 - r2)),
    (sqrt (2 * (1 - r1))), (sqrt (2 * (1 - r2))), (sqrt (- 2 * ln r1)), (sqrt (- 2 * ln r2)).
  rewrite !angular_std_r, !circ_std_r by lra.
  assert (ln r1 < ln r2) by (apply ln_increasing; lra).
  pose proof (ln_le0 r2 ltac:(lra)).
  repeat split; auto; try lra; apply sqrt_lt_1; lra.
Qed.

(** Bin-corrected variance: all the weight in one bin gives a negative value. *)
Lemma x_gt_sin x : 0 < x -> sin x < x.
Proof. intros. apply sin_lt_x. assumption. Qed.
Lemma binned_var_negative :
  exists alpha w v, valid_sample alpha (Some w) /\
    circ_var (Some alpha) (Some w) None None = Ok v /\ v < 0 /\
    angular_std (Some alpha) (Some w) None None = Ok NaN /\
    circ_std (Some alpha) (Some w) None None = Ok NaN.
Proof.
  exists [0; PI / 4; PI / 2], [0; 5; 0].
  pose proof PI_pos as Hp.
  assert (V : valid_sample [0; PI / 4; PI / 2] (Some [0; 5; 0])).
  { split; [discriminate|]. split; [reflexivity|]. split; [|simpl; lra].
    repeat (apply Forall_cons; [lra|]). apply Forall_nil. }
  assert (R1 : circ_r [0; PI / 4; PI / 2] (Some [0; 5; 0]) = 1).
  { apply (circ_r_one _ _ V). intros a b Ha Hb.
    assert (forall c, observed [0; PI / 4; PI / 2] (Some [0; 5; 0]) c -> c = PI / 4).
    { intros c (x & Hx & Px). simpl in Hx.
      destruct Hx as [E|[E|[E|[]]]]; injection E as <- <-; lra. }
    rewrite (H a Ha), (H b Hb). apply same_dir_refl. }
  pose (b := PI / 4).
  assert (S8 : 0 < sin (b / 2)) by (apply sin_gt_0; unfold b; lra).
  assert (B : 1 < b / (2 * sin (b / 2))).
  { apply Rmult_lt_reg_r with (2 * sin (b / 2)); [lra|]. unfold Rdiv.
    rewrite Rmult_assoc, Rinv_l by lra. pose proof (x_gt_sin (b / 2) ltac:(unfold b; lra)). lra. }
  assert (E : circ_var (Some [0; PI / 4; PI / 2]) (Some [0; 5; 0]) None None
              = Ok (1 - b / (2 * sin (b / 2)))).
  { unfold circ_var. cbn [bind]. rewrite R1.
    replace (all_same [0; 5; 0]) with false.
    2:{ simpl. destruct (Reqb_spec 5 0); [lra|]. reflexivity. }
    simpl list_min. cbn [bind].
    replace (Rmin (PI / 4 - 0) (PI / 2 - PI / 4)) with b
      by (rewrite Rmin_left; unfold b; lra).
    destruct (Reqb_spec b 0); [unfold b in *; lra|]. cbv zeta. f_equal. ring. }
  exists (1 - b / (2 * sin (b / 2))). split; [exact V|]. split; [exact E|]. split; [lra|].
  unfold angular_std, angular_var, circ_std. rewrite E. cbn [bind]. unfold np_sqrt. split.
  - destruct (Rltb_spec (2 * (1 - b / (2 * sin (b / 2)))) 0); [reflexivity|lra].
  - replace (1 - (1 - b / (2 * sin (b / 2)))) with (b / (2 * sin (b / 2))) by ring.
    destruct (Rltb_spec (b / (2 * sin (b / 2))) 0); [lra|].
    destruct (Reqb_spec (b / (2 * sin (b / 2))) 0); [lra|].
    assert (0 < ln (b / (2 * sin (b / 2)))) by (rewrite <- ln_1; apply ln_increasing; lra).
    destruct (Rltb_spec (- 2 * ln (b / (2 * sin (b / 2)))) 0); [reflexivity|lra].
Qed.

(** * C16 *)
Lemma center_spec x y :
  - PI < circ_dist Center x y <= PI /\ same_dir (circ_dist Center x y) (x - y).
Proof.
  cbn [circ_dist]. unfold circ_dist_center. split; [apply arctan2_range|].
  assert (D : cos y * cos y + sin y * sin y = 1).
  { pose proof (sin2_cos2 y) as P. unfold Rsqr in P. lra. }
  rewrite D. apply arctan2_unique with 1; [lra| |]; rewrite ?cos_minus, ?sin_minus; field.
Qed.
Lemma same_dir_arc_dist a b d : - PI < d <= PI -> same_dir d (a - b) -> is_arc_dist a b (Rabs d).
Proof.
  intros H [k E]. split.
  - exists k. f_equal. exact E.
  - intros j. pose proof PI_pos as Hp.
    replace (a - b + 2 * PI * IZR j) with (d + 2 * PI * IZR (j - k)) by (rewrite minus_IZR; lra).
    set (i := (j - k)%Z). destruct (Z.eq_dec i 0) as [->|N]; [rewrite Rmult_0_r, Rplus_0_r; lra|].
    assert (A : 1 <= Rabs (IZR i)).
    { rewrite <- abs_IZR. apply IZR_le. lia. }
    assert (B : Rabs (2 * PI * IZR i) = 2 * PI * Rabs (IZR i)).
    { rewrite !Rabs_mult, (Rabs_right 2), (Rabs_right PI) by lra. reflexivity. }
    pose proof (Rabs_triang_inv (2 * PI * IZR i) (- d)) as T.
    replace (2 * PI * IZR i - - d) with (d + 2 * PI * IZR i) in T by ring.
    rewrite Rabs_Ropp, B in T. assert (Rabs d <= PI) by (apply Rabs_le; lra). nra.
Qed.
Lemma center_abs x y : Rabs (circ_dist Center x y) = angular_distance x y.
Proof.
  destruct (center_spec x y) as [H1 H2]. apply (arc_dist_unique x y).
  - now apply same_dir_arc_dist.
  - apply angular_distance_arc.
Qed.
Lemma chord_spec x y : circ_dist Chord x y = 2 * sin (angular_distance x y / 2).
Proof.
  cbn [circ_dist]. unfold circ_dist_chord. rewrite <- angular_distance_cos.
  pose proof (angular_distance_range x y) as Rg. set (d := angular_distance x y) in *.
  pose proof PI_pos as Hp.
  replace (cos d) with (1 - 2 * sin (d / 2) * sin (d / 2)).
  - replace (2 * (1 - (1 - 2 * sin (d / 2) * sin (d / 2))))
      with ((2 * sin (d / 2)) * (2 * sin (d / 2))) by ring.
    apply sqrt_square. assert (0 <= sin (d / 2)) by (apply sin_ge_0; lra). lra.
  - replace d with (2 * (d / 2)) at 3 by field. rewrite cos_2a_sin. ring.
Qed.
Lemma angsep_spec x y : circ_dist AngSep x y = 1 - cos (angular_distance x y).
Proof. cbn [circ_dist]. unfold circ_dist_angsep. now rewrite angular_distance_cos. Qed.
Lemma metrics_order x y x' y' :
  angular_distance x y < angular_distance x' y' ->
  Rabs (circ_dist Center x y) < Rabs (circ_dist Center x' y') /\
  circ_dist Chord x y < circ_dist Chord x' y' /\
  circ_dist AngSep x y < circ_dist AngSep x' y'.
Proof.
  intros H. rewrite !center_abs, !chord_spec, !angsep_spec.
  pose proof (angular_distance_range x y). pose proof (angular_distance_range x' y').
  pose proof PI_pos. split; [exact H|]. split.
  - apply Rmult_lt_compat_l; [lra|]. apply sin_increasing_1; lra.
  - assert (cos (angular_distance x' y') < cos (angular_distance x y))
      by (apply cos_decreasing_1; lra). lra.
Qed.
Lemma metrics_dirs m x x' y y' : m <> Geodesic -> same_dir x x' -> same_dir y y' ->
  circ_dist m x y = circ_dist m x' y'.
Proof.
  intros Hm Hx Hy. destruct m; try congruence; cbn [circ_dist].
  - unfold circ_dist_center. rewrite (same_dir_cos _ _ Hx), (same_dir_sin _ _ Hx),
      (same_dir_cos _ _ Hy), (same_dir_sin _ _ Hy). reflexivity.
  - unfold circ_dist_angsep. rewrite (same_dir_cos _ _ (same_dir_sub _ _ _ _ Hx Hy)). reflexivity.
  - unfold circ_dist_chord. rewrite (same_dir_cos _ _ (same_dir_sub _ _ _ _ Hx Hy)). reflexivity.
Qed.

(** * C17 *)
Lemma geodesic_spec x y : Rabs (x - y) <= 2 * PI ->
  is_arc_dist x y (circ_dist Geodesic x y).
Proof.
  intros H. cbn [circ_dist]. unfold circ_dist_geodesic. pose proof PI_pos as Hp.
  set (d := x - y) in *.
  assert (E : PI - Rabs (PI - Rabs d) =
    Rabs (if Rle_dec d (- PI) then d + 2 * PI else if Rle_dec d PI then d else d - 2 * PI)).
  { destruct (Rle_dec d (- PI)); [|destruct (Rle_dec d PI)]; unfold Rabs in *;
      repeat destruct Rcase_abs; try lra. }
  rewrite E. apply same_dir_arc_dist.
  - destruct (Rle_dec d (- PI)); [|destruct (Rle_dec d PI)]; unfold Rabs in *;
      repeat destruct Rcase_abs; try lra.
    (* d = -2 pi gives 0 *)
  - fold d. destruct (Rle_dec d (- PI)); [exists 1%Z|destruct (Rle_dec d PI); [exists 0%Z|exists (-1)%Z]];
      simpl; lra.
Qed.
Lemma geodesic_wrong :
  exists x y, same_dir x (y + PI) /\ circ_dist Geodesic x y < 0 /\
              angular_distance x y = PI /\
              circ_dist Geodesic (x - 2 * PI) y = PI.
Proof.
  exists (3 * PI), 0. pose proof PI_pos as Hp.
  assert (G : circ_dist Geodesic (3 * PI - 2 * PI) 0 = PI).
  { cbn [circ_dist]. unfold circ_dist_geodesic. unfold Rabs; repeat destruct Rcase_abs; lra. }
  split; [exists 1%Z; simpl; lra|]. split; [|split; [|exact G]].
  - cbn [circ_dist]. unfold circ_dist_geodesic. unfold Rabs; repeat destruct Rcase_abs; lra.
  - rewrite (angular_distance_dir (3 * PI) (3 * PI - 2 * PI) 0 0).
    + rewrite <- center_abs. transitivity (circ_dist Geodesic (3 * PI - 2 * PI) 0); [|exact G].
      apply (arc_dist_unique (3 * PI - 2 * PI) 0).
      * destruct (center_spec (3 * PI - 2 * PI) 0). now apply same_dir_arc_dist.
      * apply geodesic_spec. unfold Rabs; destruct Rcase_abs; lra.
    + exists 1%Z. simpl. lra.
    + apply same_dir_refl.
Qed.

(** * C18 *)
Lemma dev_eq alpha b : alpha <> [] ->
  PI - mean (map (fun a => Rabs (PI - Rabs (a - b))) alpha) =
  mean (map (fun a => PI - Rabs (PI - Rabs (a - b))) alpha).
Proof.
  intros H. unfold mean. rewrite Rsum_map_minus, !map_length, Rsum_map_const.
  field. apply not_0_INR. destruct alpha; simpl; [congruence|lia].
Qed.
Lemma chunk_loop_eq alpha chunk : alpha <> [] -> (0 < chunk)%nat ->
  forall fuel beta, (length beta <= fuel)%nat ->
  chunk_loop fuel chunk alpha beta = circ_mean_deviation alpha beta.
Proof.
  intros Ha Hc. induction fuel as [|f IH]; intros beta Hf.
  - destruct beta; simpl in *; [reflexivity|lia].
  - destruct beta as [|b beta]; [reflexivity|].
    cbn [chunk_loop]. rewrite IH.
    + unfold circ_mean_deviation. rewrite <- (firstn_skipn chunk (b :: beta)) at 3.
      rewrite map_app. f_equal. apply map_ext. intros c. rewrite (dev_eq alpha c Ha). reflexivity.
    + rewrite skipn_length. cbn [length] in *. lia.
Qed.
Lemma chunked_eq alpha beta chunk : alpha <> [] -> (0 < chunk)%Z ->
  circ_mean_deviation_chunked alpha beta chunk = Ok (circ_mean_deviation alpha beta).
Proof.
  intros Ha Hc. unfold circ_mean_deviation_chunked.
  destruct (Z.leb_spec chunk 0); [lia|]. f_equal. apply chunk_loop_eq; auto. lia.
Qed.
Lemma chunked_err alpha beta chunk : (chunk <= 0)%Z ->
  circ_mean_deviation_chunked alpha beta chunk = Err ValueError.
Proof.
  intros Hc. unfold circ_mean_deviation_chunked. destruct (Z.leb_spec chunk 0); [auto|lia].
Qed.
Lemma deviation_length alpha beta : length (circ_mean_deviation alpha beta) = length beta.
Proof. apply map_length. Qed.
