(** Concrete instances used by the Examples of DescProps.v. *)
From Verif Require Import Prelude NpModel NpProofs CircleSpec UtilsModel UtilsProofs
  DescModel DescProofs DescSpec DescApi DescApi2.

(** A right angle observed with weights 1 and 3. *)
Definition sA : list R := [0; PI / 2].
Definition wA : list R := [1; 3].
Lemma ex_valid : valid_sample sA (Some wA).
Proof.
  split; [discriminate|]. split; [reflexivity|]. split; [|simpl; lra].
  repeat (apply Forall_cons; [lra|]). apply Forall_nil.
Qed.
Lemma ex_C : compute_C (smp sA (Some wA)) 1 0 = 1 / 4.
Proof.
  rewrite compute_C_eq. unfold Csum, wtotal, smp, sA, wA. simpl. rewrite cos_0, cos_PI2. field.
Qed.
Lemma ex_S : compute_S (smp sA (Some wA)) 1 0 = 3 / 4.
Proof.
  rewrite compute_S_eq. unfold Ssum, wtotal, smp, sA, wA. simpl. rewrite sin_0, sin_PI2. field.
Qed.
Lemma ex_r : circ_r sA (Some wA) = sqrt (10 / 16).
Proof.
  unfold circ_r, circ_r_s. fold (smp sA (Some wA)). rewrite ex_C, ex_S. f_equal. field.
Qed.
Lemma ex_r_inner : 0 < circ_r sA (Some wA) < 1.
Proof.
  rewrite ex_r. split; [apply sqrt_lt_R0; lra|]. rewrite <- sqrt_1.
  apply sqrt_lt_1; lra.
Qed.
Lemma ex_mean : circ_mean sA (Some wA) = Fin (atan 3).
Proof.
  destruct (circ_mean_cases sA (Some wA)) as [[H1 _]|[_ H2]].
  - exfalso. rewrite ex_r in H1.
    assert (1/2 < sqrt (10/16)).
    { replace (1/2) with (sqrt ((1/2)*(1/2))) by (apply sqrt_square; lra). apply sqrt_lt_1; lra. }
    lra.
  - rewrite H2. unfold mean_dir. rewrite ex_C, ex_S. f_equal.
    assert (E : arctan2 (3/4) (1/4) = atan 3).
    { unfold arctan2. destruct (Rltb_spec 0 (1/4)); [|lra]. f_equal. field. }
    rewrite E, angmod0_eq. apply pymod_small.
    pose proof (atan_bound 3). pose proof PI_pos.
    assert (0 < atan 3) by (rewrite <- atan_0; apply atan_increasing; lra). lra.
Qed.
Lemma ex_var : exists v, circ_var (Some [0; PI / 2]) None None None = Ok v /\ 0 < v < 1.
Proof.
  exists (1 - circ_r [0; PI / 2] None). split; [reflexivity|].
  assert (E : circ_r [0; PI / 2] None = sqrt (1 / 2)).
  { unfold circ_r, circ_r_s. fold (smp [0; PI / 2] None).
    rewrite compute_C_eq, compute_S_eq, Csum_none, Ssum_none, wtotal_none. simpl.
    rewrite cos_0, cos_PI2, sin_0, sin_PI2. f_equal. field. }
  rewrite E. assert (sqrt (1/2) < 1) by (rewrite <- sqrt_1 at 2; apply sqrt_lt_1; lra).
  assert (0 < sqrt (1/2)) by (apply sqrt_lt_R0; lra). lra.
Qed.
Lemma ex_coincident : circ_r [1; 1 + 2 * PI; 5] (Some [1; 2; 0]) = 1.
Proof.
  apply circ_r_one.
  - split; [discriminate|]. split; [reflexivity|]. split; [|simpl; lra].
    repeat (apply Forall_cons; [lra|]). apply Forall_nil.
  - assert (H : forall a, observed [1; 1 + 2 * PI; 5] (Some [1; 2; 0]) a -> same_dir a 1).
    { intros a (x & Hx & Px). simpl in Hx.
      destruct Hx as [E|[E|[E|[]]]]; injection E as <- <-; [exists 0%Z|exists 1%Z|lra]; simpl; lra. }
    intros a b Ha Hb. apply same_dir_trans with 1; [auto|apply same_dir_sym; auto].
Qed.
Lemma ex_turned : turned [0; PI] [2 * PI; - PI].
Proof.
  unfold turned. repeat constructor; [exists (-1)%Z|exists 1%Z]; simpl; lra.
Qed.
Lemma ex_reordered : reordered [0; PI] (Some [1; 2]) [PI; 0] (Some [2; 1]).
Proof. repeat split; simpl; auto. apply perm_swap. Qed.
Lemma ex_repeat : np_repeat [0; PI / 2] [1%nat; 3%nat] = [0; PI / 2; PI / 2; PI / 2].
Proof. reflexivity. Qed.
Lemma ex_group a : circ_mean_and_r [a; a] None = (Fin (angmod0 a), 1).
Proof.
  assert (V : valid_sample [a; a] None) by (apply valid_none; discriminate).
  assert (E : circ_r [a; a] None = 1).
  { apply circ_r_one; auto. intros x y Hx Hy.
    assert (H : forall z, observed [a; a] None z -> z = a).
    { intros z (u & Hu & _). simpl in Hu. destruct Hu as [K|[K|[]]]; injection K as <- <-; reflexivity. }
    rewrite (H x Hx), (H y Hy). apply same_dir_refl. }
  destruct (circ_mean_and_r_s_cases (smp [a; a] None)) as [[H1 H2]|[H1 H2]];
    unfold circ_r in E; fold (smp [a; a] None) in E; rewrite E in *; [lra|].
  unfold circ_mean_and_r. fold (smp [a; a] None). rewrite H2. do 2 f_equal.
  unfold mean_dir. apply angmod0_eq_iff. apply arctan2_unique with 1; [lra| |].
  - rewrite compute_C_eq, Csum_none, wtotal_none. simpl. field.
  - rewrite compute_S_eq, Ssum_none, wtotal_none. simpl. field.
Qed.
Lemma ex_groups : Forall (fun g => length g = 2%nat) [[0; 0]; [PI / 2; PI / 2]] /\
  Forall (fun g => is_fin (fst (circ_mean_and_r g None))) [[0; 0]; [PI / 2; PI / 2]].
Proof. split; repeat constructor; rewrite ex_group; eexists; reflexivity. Qed.
Lemma ex_center : circ_dist Center (3 * PI) (PI / 2) = PI / 2.
Proof.
  destruct (center_spec (3 * PI) (PI / 2)) as [H1 H2]. pose proof PI_pos.
  apply (same_dir_unique_r (- PI)); try lra.
  apply same_dir_trans with (3 * PI - PI / 2); auto. exists 1%Z. simpl. lra.
Qed.
Lemma ex_order : angular_distance 0 (PI / 4) < angular_distance 0 (PI / 2).
Proof.
  pose proof PI_pos.
  assert (A : forall x, 0 <= x <= PI -> angular_distance 0 x = x).
  { intros x Hx. rewrite angular_distance_sym. unfold angular_distance. rewrite angmod0_eq.
    rewrite pymod_small by lra. rewrite Rminus_0_r. apply Rmin_left. lra. }
  rewrite !A by lra. lra.
Qed.
Lemma ex_chunk : circ_mean_deviation_chunked [0; PI] [0; 1; 2] 2 =
  Ok (circ_mean_deviation [0; PI] [0; 1; 2]).
Proof. apply chunked_eq; [discriminate|lia]. Qed.
Lemma ex_geo : Rabs (PI - - PI) <= 2 * PI /\ circ_dist Geodesic PI (- PI) = 0.
Proof.
  pose proof PI_pos. cbn [circ_dist]. unfold circ_dist_geodesic. split.
  - unfold Rabs; destruct Rcase_abs; lra.
  - unfold Rabs; repeat destruct Rcase_abs; lra.
Qed.
