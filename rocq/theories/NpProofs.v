(** Facts about the numpy primitives of NpModel. *)
From Verif Require Import Prelude NpModel CircleSpec.
From Coq Require Import Sorting.Sorted.

(** * Floor and mod *)
Lemma Rfloor_spec x : IZR (Rfloor x) <= x < IZR (Rfloor x) + 1.
Proof.
  unfold Rfloor. destruct (base_Int_part x) as [H1 H2]. lra.
Qed.
Lemma Rfloor_unique x (k : Z) : IZR k <= x < IZR k + 1 -> Rfloor x = k.
Proof.
  intros H. pose proof (Rfloor_spec x) as H'.
  assert (IZR k < IZR (Rfloor x + 1)) by (rewrite plus_IZR; lra).
  assert (IZR (Rfloor x) < IZR (k + 1)) by (rewrite plus_IZR; lra).
  apply lt_IZR in H0. apply lt_IZR in H1. lia.
Qed.
Lemma Rfloor_mono x y : x <= y -> (Rfloor x <= Rfloor y)%Z.
Proof.
  intros H. pose proof (Rfloor_spec x). pose proof (Rfloor_spec y).
  assert (IZR (Rfloor x) < IZR (Rfloor y + 1)) by (rewrite plus_IZR; lra).
  apply lt_IZR in H2. lia.
Qed.
Lemma Rfloor_IZR k : Rfloor (IZR k) = k.
Proof. apply Rfloor_unique. lra. Qed.

Lemma pymod_range x m : 0 < m -> 0 <= pymod x m < m.
Proof.
  intros Hm. unfold pymod. pose proof (Rfloor_spec (x / m)) as [H1 H2].
  assert (E : x = m * (x / m)) by (field; lra).
  split.
  - assert (m * IZR (Rfloor (x / m)) <= m * (x / m)) by (apply Rmult_le_compat_l; lra). lra.
  - assert (m * (x / m) < m * (IZR (Rfloor (x / m)) + 1)) by (apply Rmult_lt_compat_l; lra). lra.
Qed.
Lemma pymod_cong x m : exists k : Z, x = pymod x m + m * IZR k.
Proof. exists (Rfloor (x / m)). unfold pymod. lra. Qed.

Lemma rep_unique lo span x y1 y2 :
  is_rep lo span x y1 -> is_rep lo span x y2 -> y1 = y2.
Proof.
  intros [R1 [k1 E1]] [R2 [k2 E2]].
  assert (Hs : 0 < span) by lra.
  assert (span * (IZR k1 - IZR k2) = y2 - y1) by lra.
  assert (A1 : -1 < IZR k1 - IZR k2 < 1).
  { split; apply Rmult_lt_reg_l with span; lra. }
  rewrite <- minus_IZR in A1.
  assert (-1 < k1 - k2 < 1)%Z by (split; apply lt_IZR; lra).
  assert (k1 = k2) by lia. subst. lra.
Qed.
Lemma pymod_rep x m : 0 < m -> is_rep 0 m x (pymod x m).
Proof.
  intros H. split; [pose proof (pymod_range x m H); lra|apply pymod_cong].
Qed.
Lemma pymod_unique x m y : 0 <= y < m -> (exists k : Z, x = y + m * IZR k) -> pymod x m = y.
Proof.
  intros H Hk. apply (rep_unique 0 m x).
  - apply pymod_rep; lra.
  - split; [lra|exact Hk].
Qed.
Lemma pymod_small x m : 0 <= x < m -> pymod x m = x.
Proof. intros H. apply pymod_unique; [exact H|]. exists 0%Z. simpl; lra. Qed.
Lemma pymod_add x m (k : Z) : 0 < m -> pymod (x + m * IZR k) m = pymod x m.
Proof.
  intros H. apply pymod_unique; [apply pymod_range; exact H|].
  destruct (pymod_cong x m) as [j E]. exists (j + k)%Z. rewrite plus_IZR. lra.
Qed.

(** * Directions *)
Lemma same_dir_refl a : same_dir a a.
Proof. exists 0%Z; simpl; lra. Qed.
Lemma same_dir_sym a b : same_dir a b -> same_dir b a.
Proof. intros [k E]; exists (-k)%Z; rewrite opp_IZR; lra. Qed.
Lemma same_dir_trans a b c : same_dir a b -> same_dir b c -> same_dir a c.
Proof. intros [k E] [j F]; exists (k + j)%Z; rewrite plus_IZR; lra. Qed.
Lemma same_dir_add a b c d : same_dir a b -> same_dir c d -> same_dir (a + c) (b + d).
Proof. intros [k E] [j F]; exists (k + j)%Z; rewrite plus_IZR; lra. Qed.
Lemma same_dir_opp a b : same_dir a b -> same_dir (- a) (- b).
Proof. intros [k E]; exists (-k)%Z; rewrite opp_IZR; lra. Qed.
Lemma same_dir_sub a b c d : same_dir a b -> same_dir c d -> same_dir (a - c) (b - d).
Proof. intros H K. unfold Rminus. apply same_dir_add; [exact H|apply same_dir_opp; exact K]. Qed.

Lemma cos_turns_nat x n : cos (x + 2 * INR n * PI) = cos x.
Proof. apply cos_period. Qed.
Lemma cos_turns x (k : Z) : cos (x + 2 * PI * IZR k) = cos x.
Proof.
  destruct (Z.le_ge_cases 0 k) as [H|H].
  - rewrite <- (Z2Nat.id k H), <- INR_IZR_INZ.
    replace (x + 2 * PI * INR (Z.to_nat k)) with (x + 2 * INR (Z.to_nat k) * PI) by lra.
    apply cos_period.
  - set (y := x + 2 * PI * IZR k).
    replace x with (y + 2 * INR (Z.to_nat (- k)) * PI).
    + rewrite cos_period. reflexivity.
    + rewrite INR_IZR_INZ, Z2Nat.id by lia. rewrite opp_IZR. unfold y. lra.
Qed.
Lemma sin_turns x (k : Z) : sin (x + 2 * PI * IZR k) = sin x.
Proof.
  destruct (Z.le_ge_cases 0 k) as [H|H].
  - rewrite <- (Z2Nat.id k H), <- INR_IZR_INZ.
    replace (x + 2 * PI * INR (Z.to_nat k)) with (x + 2 * INR (Z.to_nat k) * PI) by lra.
    apply sin_period.
  - set (y := x + 2 * PI * IZR k).
    replace x with (y + 2 * INR (Z.to_nat (- k)) * PI).
    + rewrite sin_period. reflexivity.
    + rewrite INR_IZR_INZ, Z2Nat.id by lia. rewrite opp_IZR. unfold y. lra.
Qed.
Lemma same_dir_cos a b : same_dir a b -> cos a = cos b.
Proof. intros [k ->]. apply cos_turns. Qed.
Lemma same_dir_sin a b : same_dir a b -> sin a = sin b.
Proof. intros [k ->]. apply sin_turns. Qed.

(** cos x = 1 only at whole turns. *)
Lemma cos_eq_1 x : cos x = 1 -> same_dir x 0.
Proof.
  intros H.
  destruct (pymod_cong x (2 * PI)) as [k E].
  pose proof (pymod_range x (2 * PI) PI2_pos) as Rg.
  set (y := pymod x (2 * PI)) in *.
  assert (Hy : cos y = 1) by (rewrite E, cos_turns in H; exact H).
  assert (y = 0).
  { assert (C : cos y = 1 - 2 * sin (y / 2) * sin (y / 2)).
    { replace y with (2 * (y / 2)) at 1 by field. rewrite cos_2a_sin. reflexivity. }
    assert (S0 : sin (y / 2) * sin (y / 2) = 0) by lra.
    assert (S1 : sin (y / 2) = 0) by (apply Rmult_integral in S0; tauto).
    destruct (Req_dec y 0) as [|N]; [assumption|].
    assert (0 < sin (y / 2)) by (apply sin_gt_0; lra). lra. }
  exists k. lra.
Qed.
Lemma cos_sin_same_dir a b : cos a = cos b -> sin a = sin b -> same_dir a b.
Proof.
  intros Hc Hs.
  assert (H : cos (a - b) = 1).
  { rewrite cos_minus, Hc, Hs. pose proof (sin2_cos2 b). unfold Rsqr in *. lra. }
  destruct (cos_eq_1 _ H) as [k E]. exists k. lra.
Qed.
Lemma same_dir_iff a b : same_dir a b <-> cos a = cos b /\ sin a = sin b.
Proof.
  split.
  - intros H; split; [apply same_dir_cos|apply same_dir_sin]; exact H.
  - intros [H1 H2]; apply cos_sin_same_dir; assumption.
Qed.
Lemma pymod_same_dir x : same_dir (pymod x (2 * PI)) x.
Proof. destruct (pymod_cong x (2 * PI)) as [k E]. apply same_dir_sym. exists k. exact E. Qed.
Lemma same_dir_pymod a b : same_dir a b <-> pymod a (2 * PI) = pymod b (2 * PI).
Proof.
  split.
  - intros [k ->]. apply pymod_add. exact PI2_pos.
  - intros H. apply same_dir_trans with (pymod a (2 * PI)).
    + apply same_dir_sym, pymod_same_dir.
    + rewrite H. apply pymod_same_dir.
Qed.
Lemma same_dir_unique lo a b :
  lo <= a < lo + 2 * PI -> lo <= b < lo + 2 * PI -> same_dir a b -> a = b.
Proof.
  intros Ha Hb [k E]. apply (rep_unique lo (2 * PI) a).
  - split; [exact Ha|exists 0%Z; simpl; lra].
  - split; [exact Hb|exists k; exact E].
Qed.
Lemma same_dir_unique_r lo a b :
  lo < a <= lo + 2 * PI -> lo < b <= lo + 2 * PI -> same_dir a b -> a = b.
Proof.
  intros Ha Hb H.
  assert (E : - a = - b).
  { apply (same_dir_unique (- lo - 2 * PI)); try lra. apply same_dir_opp; exact H. }
  lra.
Qed.

(** * arctan2 *)
Lemma sqrt_sum_pos x y : x <> 0 \/ y <> 0 -> 0 < sqrt (x * x + y * y).
Proof.
  intros H. apply sqrt_lt_R0.
  pose proof (Rle_0_sqr x); pose proof (Rle_0_sqr y); unfold Rsqr in *.
  destruct H as [H|H]; apply Rsqr_pos_lt in H; unfold Rsqr in H; lra.
Qed.
Lemma cos_atan_pos a : cos (atan a) = / sqrt (1 + a * a).
Proof.
  pose proof (atan_bound a) as [B1 B2].
  assert (C : 0 < cos (atan a)) by (apply cos_gt_0; lra).
  pose proof (tan_atan a) as T. unfold tan in T.
  assert (Es : sin (atan a) = a * cos (atan a)) by (field_simplify_eq in T; lra).
  pose proof (sin2_cos2 (atan a)) as P. unfold Rsqr in P. rewrite Es in P.
  assert (Q : (cos (atan a) * cos (atan a)) * (1 + a * a) = 1) by lra.
  assert (Hp : 0 < 1 + a * a) by (pose proof (Rle_0_sqr a); unfold Rsqr in *; lra).
  assert (S : sqrt (1 + a * a) * sqrt (1 + a * a) = 1 + a * a) by (apply sqrt_sqrt; lra).
  assert (Sp : 0 < sqrt (1 + a * a)) by (apply sqrt_lt_R0; exact Hp).
  assert (E1 : cos (atan a) * sqrt (1 + a * a) = 1).
  { assert (F : (cos (atan a) * sqrt (1 + a * a)) * (cos (atan a) * sqrt (1 + a * a)) = 1).
    { replace (cos (atan a) * sqrt (1 + a * a) * (cos (atan a) * sqrt (1 + a * a)))
        with ((cos (atan a) * cos (atan a)) * (sqrt (1 + a * a) * sqrt (1 + a * a))) by ring.
      rewrite S. exact Q. }
    set (t := cos (atan a) * sqrt (1 + a * a)) in *.
    assert (0 < t) by (unfold t; apply Rmult_lt_0_compat; assumption).
    assert ((t - 1) * (t + 1) = 0) by lra.
    apply Rmult_integral in H0. lra. }
  apply Rmult_eq_reg_r with (sqrt (1 + a * a)); [|lra].
  rewrite E1. field. lra.
Qed.
Lemma sin_atan_eq a : sin (atan a) = a / sqrt (1 + a * a).
Proof.
  pose proof (atan_bound a) as [B1 B2].
  assert (C : 0 < cos (atan a)) by (apply cos_gt_0; lra).
  pose proof (tan_atan a) as T. unfold tan in T.
  assert (Es : sin (atan a) = a * cos (atan a)) by (field_simplify_eq in T; lra).
  rewrite Es, cos_atan_pos. reflexivity.
Qed.
Lemma sqrt_scale x y : x <> 0 ->
  sqrt (x * x + y * y) = Rabs x * sqrt (1 + (y / x) * (y / x)).
Proof.
  intros Hx.
  replace (x * x + y * y) with ((x * x) * (1 + y / x * (y / x))) by (field; exact Hx).
  rewrite sqrt_mult.
  - f_equal. rewrite <- (sqrt_Rsqr_abs x). reflexivity.
  - pose proof (Rle_0_sqr x); unfold Rsqr in *; lra.
  - pose proof (Rle_0_sqr (y / x)); unfold Rsqr in *; lra.
Qed.

Lemma arctan2_polar y x : x <> 0 \/ y <> 0 ->
  x = sqrt (x * x + y * y) * cos (arctan2 y x) /\
  y = sqrt (x * x + y * y) * sin (arctan2 y x).
Proof.
  intros H. unfold arctan2.
  destruct (Rltb_spec 0 x) as [Hx|Hx].
  - rewrite sqrt_scale by lra. rewrite Rabs_right by lra.
    rewrite cos_atan_pos, sin_atan_eq.
    assert (0 < sqrt (1 + y / x * (y / x)))
      by (apply sqrt_lt_R0; pose proof (Rle_0_sqr (y / x)); unfold Rsqr in *; lra).
    split; field; lra.
  - destruct (Rltb_spec x 0) as [Hx'|Hx'].
    + rewrite sqrt_scale by lra. rewrite Rabs_left by lra.
      assert (0 < sqrt (1 + y / x * (y / x)))
        by (apply sqrt_lt_R0; pose proof (Rle_0_sqr (y / x)); unfold Rsqr in *; lra).
      destruct (Rleb_spec 0 y).
      * rewrite neg_cos, neg_sin, cos_atan_pos, sin_atan_eq. split; field; lra.
      * replace (atan (y / x) - PI) with (- (PI - atan (y / x))) by ring.
        rewrite cos_neg, sin_neg.
        rewrite <- sin_PI_x.
        replace (PI - atan (y / x)) with (- atan (y / x) + PI) by ring.
        replace (PI - (- atan (y / x) + PI)) with (atan (y / x)) by ring.
        rewrite neg_cos, cos_neg, cos_atan_pos, sin_atan_eq. split; field; lra.
    + assert (x = 0) by lra. subst x.
      replace (0 * 0 + y * y) with (Rsqr y) by (unfold Rsqr; ring).
      rewrite sqrt_Rsqr_abs.
      destruct (Rltb_spec 0 y) as [Hy|Hy].
      * rewrite Rabs_right by lra. rewrite cos_PI2, sin_PI2. lra.
      * destruct (Rltb_spec y 0) as [Hy'|Hy'].
        -- rewrite Rabs_left by lra. rewrite cos_neg, sin_neg, cos_PI2, sin_PI2. lra.
        -- exfalso. destruct H; lra.
Qed.
Lemma arctan2_range y x : - PI < arctan2 y x <= PI.
Proof.
  pose proof PI_pos as Hp. unfold arctan2.
  pose proof (atan_bound (y / x)) as [B1 B2].
  destruct (Rltb_spec 0 x) as [Hx|Hx]; [lra|].
  destruct (Rltb_spec x 0) as [Hx'|Hx'].
  - destruct (Rleb_spec 0 y) as [Hy|Hy].
    + assert (y / x <= 0).
      { unfold Rdiv. assert (/ x < 0) by (apply Rinv_lt_0_compat; exact Hx'). nra. }
      assert (atan (y / x) <= 0).
      { destruct (Req_dec (y / x) 0) as [->|N]; [rewrite atan_0; lra|].
        rewrite <- atan_0. apply Rlt_le, atan_increasing. lra. }
      lra.
    + assert (0 < y / x).
      { unfold Rdiv. assert (/ x < 0) by (apply Rinv_lt_0_compat; exact Hx'). nra. }
      assert (0 < atan (y / x)) by (rewrite <- atan_0; apply atan_increasing; lra).
      lra.
  - destruct (Rltb_spec 0 y); [lra|]. destruct (Rltb_spec y 0); lra.
Qed.

(** The angle of a vector given in polar form. *)
Lemma arctan2_unique rho t x y :
  0 < rho -> x = rho * cos t -> y = rho * sin t -> same_dir (arctan2 y x) t.
Proof.
  intros Hr Hx Hy.
  assert (N : x <> 0 \/ y <> 0).
  { destruct (Req_dec x 0) as [Zx|]; [|auto]. right. intros Zy.
    assert (cos t = 0) by (apply Rmult_eq_reg_l with rho; lra).
    assert (sin t = 0) by (apply Rmult_eq_reg_l with rho; lra).
    pose proof (sin2_cos2 t) as P. unfold Rsqr in P. rewrite H, H0 in P. lra. }
  destruct (arctan2_polar y x N) as [E1 E2].
  assert (Es : sqrt (x * x + y * y) = rho).
  { replace (x * x + y * y) with (Rsqr rho).
    - rewrite sqrt_Rsqr_abs, Rabs_right; lra.
    - pose proof (sin2_cos2 t) as P. unfold Rsqr in *.
      replace (x * x + y * y) with (rho * rho * (sin t * sin t + cos t * cos t))
        by (rewrite Hx, Hy; ring).
      rewrite P. ring. }
  rewrite Es in E1, E2.
  apply cos_sin_same_dir; apply Rmult_eq_reg_l with rho; lra.
Qed.

(** * Sorting *)
Lemma insert_perm x l : Permutation (x :: l) (insert x l).
Proof.
  induction l as [|y l IH]; simpl; [auto|].
  destruct (Rleb x y); [auto|].
  apply perm_trans with (y :: x :: l); [apply perm_swap|apply perm_skip, IH].
Qed.
Lemma sort_perm l : Permutation l (nsort l).
Proof.
  induction l as [|x l IH]; simpl; [auto|].
  apply perm_trans with (x :: nsort l); [apply perm_skip, IH|apply insert_perm].
Qed.
Lemma insert_sorted x l : StronglySorted Rle l -> StronglySorted Rle (insert x l).
Proof.
  induction 1 as [|y l Hs IH Hf]; simpl.
  - constructor; [constructor|constructor].
  - destruct (Rleb_spec x y) as [Hxy|Hxy].
    + constructor; [constructor; assumption|].
      constructor; [exact Hxy|].
      rewrite Forall_forall in *. intros z Hz. specialize (Hf z Hz). lra.
    + constructor; [exact IH|].
      rewrite Forall_forall in *. intros z Hz.
      apply (Permutation_in z (Permutation_sym (insert_perm x l))) in Hz.
      destruct Hz as [<-|Hz]; [lra|auto].
Qed.
Lemma sort_sorted l : StronglySorted Rle (nsort l).
Proof. induction l as [|x l IH]; simpl; [constructor|apply insert_sorted, IH]. Qed.
Lemma sort_length l : length (nsort l) = length l.
Proof. symmetry. apply Permutation_length, sort_perm. Qed.
Lemma sort_in x l : In x (nsort l) <-> In x l.
Proof.
  split; apply Permutation_in; [apply Permutation_sym|]; apply sort_perm.
Qed.
(** A sorted list is determined by its multiset. *)
Lemma sorted_perm_eq l1 l2 :
  StronglySorted Rle l1 -> StronglySorted Rle l2 -> Permutation l1 l2 -> l1 = l2.
Proof.
  revert l2; induction l1 as [|x l1 IH]; intros l2 S1 S2 P.
  - apply Permutation_nil in P. congruence.
  - destruct l2 as [|y l2]; [apply Permutation_sym, Permutation_nil in P; discriminate|].
    inversion S1 as [|? ? S1' F1]; subst. inversion S2 as [|? ? S2' F2]; subst.
    rewrite Forall_forall in F1, F2.
    assert (x = y).
    { assert (Hx : In x (y :: l2)) by (eapply Permutation_in; [exact P|left; reflexivity]).
      assert (Hy : In y (x :: l1))
        by (eapply Permutation_in; [apply Permutation_sym; exact P|left; reflexivity]).
      destruct Hx as [Hx|Hx]; [congruence|]. destruct Hy as [Hy|Hy]; [congruence|].
      specialize (F1 _ Hy). specialize (F2 _ Hx). lra. }
    subst y. f_equal. apply IH; auto. eapply Permutation_cons_inv; exact P.
Qed.
Lemma sort_perm_eq l1 l2 : Permutation l1 l2 -> nsort l1 = nsort l2.
Proof.
  intros P. apply sorted_perm_eq; try apply sort_sorted.
  apply perm_trans with l1; [apply Permutation_sym, sort_perm|].
  apply perm_trans with l2; [exact P|apply sort_perm].
Qed.
Lemma sort_id l : StronglySorted Rle l -> nsort l = l.
Proof.
  intros H. apply sorted_perm_eq; [apply sort_sorted|exact H|apply Permutation_sym, sort_perm].
Qed.
