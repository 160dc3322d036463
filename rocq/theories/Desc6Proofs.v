(** C74-C76, C78 and the witness for C23: medians of concrete samples, medians of
    reordered and turned samples. *)
From Coq Require Import Sorting.Sorted.
From Verif Require Import Prelude NpModel NpProofs CircleSpec Desc2Spec UtilsModel UtilsProofs
  DescModel DescProofs DescSpec DescApi DescApi2 DescEx Desc2Model Desc2Proofs ArcProofs Desc4Proofs Desc5Proofs.

(** * Early exit *)
Lemma isclose12_1_true r : r <= 1 -> 1 - / 100000 <= r -> isclose12 r 1 = true.
Proof.
  intros H1 H2. unfold isclose12, isclose_tol. apply Rleb_true.
  rewrite Rabs_minus_sym, (Rabs_pos_eq (1 - r)), Rabs_R1 by lra. lra.
Qed.
Lemma isclose12_1_false r : r < 1 - / 50000 -> isclose12 r 1 = false.
Proof.
  intros H1. unfold isclose12, isclose_tol. apply Rleb_false.
  rewrite Rabs_minus_sym, (Rabs_pos_eq (1 - r)), Rabs_R1 by lra. lra.
Qed.
Lemma median_early alpha w meth b avg a : isclose12 (circ_r alpha w) 1 = true ->
  hd_error alpha = Some a -> circ_median alpha w meth b avg = Ok (MOne a).
Proof.
  intros H E. unfold circ_median. unfold circ_r in H. rewrite H.
  destruct alpha as [|x l]; [discriminate|]. simpl in E. injection E as ->. reflexivity.
Qed.
(** C74: with one occupied bin the answer is the first bin, occupied or not. *)
Lemma single_bin_median alpha w meth b avg a0 : valid_sample alpha (Some w) ->
  (exists c, forall a, observed alpha (Some w) a -> a = c) -> hd_error alpha = Some a0 ->
  circ_median alpha (Some w) meth b avg = Ok (MOne a0).
Proof.
  intros V (c & Hc) E. apply median_early; auto.
  assert (R1 : circ_r alpha (Some w) = 1).
  { apply circ_r_one; auto. intros a b' Ha Hb. rewrite (Hc a Ha), (Hc b' Hb). apply same_dir_refl. }
  rewrite R1. apply isclose12_1_true; lra.
Qed.
Lemma single_bin_wrong : exists alpha w c, valid_sample alpha (Some w) /\
  (forall a, observed alpha (Some w) a -> a = c) /\
  circ_median alpha (Some w) (Some "deviation"%string) true "all"%string = Ok (MOne 0) /\ ~ same_dir 0 c.
Proof.
  exists [0; PI / 2; PI], [0; 5; 0], (PI / 2).
  assert (V : valid_sample [0; PI / 2; PI] (Some [0; 5; 0])).
  { split; [discriminate|]. split; [reflexivity|]. split; [|simpl; lra].
    repeat (apply Forall_cons; [lra|]). apply Forall_nil. }
  assert (O : forall a, observed [0; PI / 2; PI] (Some [0; 5; 0]) a -> a = PI / 2).
  { intros a (x & Hx & Px). simpl in Hx. destruct Hx as [H|[H|[H|[]]]]; injection H as <- <-; lra. }
  split; [exact V|]. split; [exact O|]. split.
  - apply single_bin_median; auto. exists (PI / 2). exact O.
  - intros D. apply same_dir_sin in D. rewrite sin_0, sin_PI2 in D. lra.
Qed.

(** * Reordering *)
Lemma dev5_perm l l' b : Permutation l l' -> dev5 l b = dev5 l' b.
Proof.
  intros P. unfold dev5, mean. rewrite !map_length, (Permutation_length P).
  do 3 f_equal. apply Rsum_perm, Permutation_map, P.
Qed.
Lemma count_diff_perm l l' b : Permutation l l' -> count_diff l b = count_diff l' b.
Proof.
  intros P. unfold count_diff. rewrite (Permutation_length P).
  set (f := fun ai => round5 (angmod0 (ai - b))).
  rewrite (count_if_perm _ (map f l) (map f l')) by (apply Permutation_map, P).
  rewrite (count_if_perm (fun x => isclose x 0 || isclose x (round5 PI))%bool (map f l) (map f l'))
    by (apply Permutation_map, P).
  reflexivity.
Qed.
Lemma filter_perm {A} (p : A -> bool) l l' : Permutation l l' -> Permutation (filter p l) (filter p l').
Proof.
  induction 1; simpl.
  - constructor.
  - destruct (p x); auto.
  - destruct (p y), (p x); auto. apply perm_swap.
  - eapply Permutation_trans; eauto.
Qed.
Lemma select_min_perm f l l' : Permutation l l' ->
  Permutation (select_min (map f l) l) (select_min (map f l') l').
Proof.
  intros P. destruct l as [|a l].
  { apply Permutation_nil in P. subst. constructor. }
  destruct (select_min_filter f (a :: l)) as [m E]. destruct (select_min_filter f l') as [m' E'].
  assert (N := select_min_nonempty f (a :: l) ltac:(discriminate)).
  assert (M : m = m').
  { destruct (select_min (map f (a :: l)) (a :: l)) as [|x t] eqn:S; [congruence|].
    assert (I : In x (select_min (map f (a :: l)) (a :: l))) by (rewrite S; left; auto).
    assert (I' : In x (select_min (map f l') l')).
    { apply select_min_map in I. apply select_min_map. destruct I as [I1 I2]. split.
      - eapply Permutation_in; eauto.
      - intros b Hb. apply I2. eapply Permutation_in; [apply Permutation_sym, P|auto]. }
    rewrite S, E in I. rewrite E' in I'. apply filter_In in I, I'.
    destruct I as [_ I]. destruct I' as [_ I']. apply Reqb_true in I, I'. congruence. }
  rewrite E, E', M. apply filter_perm, P.
Qed.
Inductive med_perm : medout -> medout -> Prop :=
| mp_nan : med_perm MNaN MNaN
| mp_one a : med_perm (MOne a) (MOne a)
| mp_many l l' : Permutation l l' -> med_perm (MMany l) (MMany l').
Lemma pick_perm al al' l l' : length al = length al' -> Permutation l l' ->
  med_perm (pick al l) (pick al' l').
Proof.
  intros L P. unfold pick. rewrite <- L, (Permutation_length P).
  destruct (Nat.eqb (length l') (length al)); [constructor|].
  destruct l as [|a [|b t]].
  - apply Permutation_nil in P. subst. constructor. constructor.
  - apply Permutation_length_1_inv in P. subst. constructor.
  - pose proof (Permutation_length P) as PL. destruct l' as [|a' [|b' t']]; simpl in PL; try lia.
    constructor. exact P.
Qed.
Lemma circ_mean_perm l l' : Permutation l l' -> circ_mean l None = circ_mean l' None.
Proof.
  intros P. apply circ_mean_invariant. unfold reordered. cbn [eff_weights].
  rewrite !repeat_length. split; [auto|]. split; [auto|].
  rewrite (Permutation_length P). 
  assert (G : forall k, (k = length l) -> Permutation (combine l (repeat 1 k)) (combine l' (repeat 1 k))).
  { intros k ->. assert (C : forall m : list R, combine m (repeat 1 (length m)) = map (fun a => (a, 1)) m).
    { induction m as [|x m IH]; simpl; [auto|now rewrite IH]. }
    rewrite C. rewrite (Permutation_length P), C. apply Permutation_map, P. }
  apply G. symmetry. apply Permutation_length, P.
Qed.
Lemma average_perm m m' f : med_perm m m' ->
  (forall l l', Permutation l l' -> Permutation (f l) (f l')) -> average m f = average m' f.
Proof.
  intros H Hf. inversion H as [|a|l l' P]; subst; try reflexivity.
  cbn [average med_list]. rewrite (circ_mean_perm (f l) (f l')); auto.
Qed.
Lemma unique_perm l l' : Permutation l l' -> Permutation (unique l) (unique l').
Proof. intros P. unfold unique. rewrite (sort_perm_eq l l' P). apply Permutation_refl. Qed.
Lemma med_mod_perm m m' : med_perm m m' -> med_perm (med_mod m) (med_mod m').
Proof. intros H. inversion H; subst; constructor. apply Permutation_map. auto. Qed.
(** The candidates before averaging. *)
Lemma med_candidates alpha alpha' meth : alpha <> [] -> Permutation alpha alpha' ->
  In meth ["deviation"; "count"]%string ->
  exists m m', med_perm m m' /\
   (forall avg b, isclose12 (circ_r alpha None) 1 = false ->
     circ_median alpha None (Some meth) b avg =
     (do x <- (if b then if String.eqb avg "all"%string then Ok (average m (fun l => l))
                         else if String.eqb avg "unique"%string then Ok (average m unique)
                         else Err ValueError
               else Ok m); Ok (med_mod x))) /\
   (forall avg b, isclose12 (circ_r alpha' None) 1 = false ->
     circ_median alpha' None (Some meth) b avg =
     (do x <- (if b then if String.eqb avg "all"%string then Ok (average m' (fun l => l))
                         else if String.eqb avg "unique"%string then Ok (average m' unique)
                         else Err ValueError
               else Ok m'); Ok (med_mod x))).
Proof.
  intros Hn P Hm.
  assert (Hn' : alpha' <> []) by (intros ->; apply Permutation_sym, Permutation_nil in P; congruence).
  pose proof (Permutation_length P) as PL.
  simpl in Hm. destruct Hm as [<-|[<-|[]]].
  - exists (pick alpha (select_min (map (dev5 alpha) alpha) alpha)),
           (pick alpha' (select_min (map (dev5 alpha') alpha') alpha')).
    split.
    + apply pick_perm; auto. rewrite (map_ext (dev5 alpha) (dev5 alpha')) by (intros; apply dev5_perm; auto).
      apply select_min_perm, P.
    + split; intros avg b E; unfold circ_median; unfold circ_r in E; rewrite E, weights_none_ones;
        cbn [negb]; simpl (String.eqb "deviation" _); cbv iota; rewrite deviation_median_eq by auto; reflexivity.
  - exists (circ_median_count alpha), (circ_median_count alpha'). split.
    + apply pick_perm; auto. rewrite (map_ext (count_diff alpha) (count_diff alpha')) by (intros; apply count_diff_perm; auto).
      apply select_min_perm, P.
    + split; intros avg b E; unfold circ_median; unfold circ_r in E; rewrite E, weights_none_ones; reflexivity.
Qed.
Lemma circ_r_perm l l' : Permutation l l' -> circ_r l None = circ_r l' None.
Proof.
  intros P. unfold circ_r. fold (smp l None). fold (smp l' None).
  apply circ_r_s_CS; rewrite ?compute_C_eq, ?compute_S_eq, ?Csum_none, ?Ssum_none, ?wtotal_none;
    rewrite (Permutation_length P); f_equal; apply Rsum_perm, Permutation_map, P.
Qed.
Lemma median_reordered alpha alpha' meth avg : alpha <> [] -> Permutation alpha alpha' ->
  isclose12 (circ_r alpha None) 1 = false ->
  In meth ["deviation"; "count"]%string -> In avg ["all"; "unique"]%string ->
  circ_median alpha None (Some meth) true avg = circ_median alpha' None (Some meth) true avg /\
  exists m m', circ_median alpha None (Some meth) false avg = Ok m /\
    circ_median alpha' None (Some meth) false avg = Ok m' /\
    Permutation (med_list m) (med_list m') /\ (m = MNaN <-> m' = MNaN).
Proof.
  intros Hn P E Hm Ha. destruct (med_candidates alpha alpha' meth Hn P Hm) as (m & m' & MP & H1 & H2).
  pose proof E as E'. rewrite (circ_r_perm alpha alpha' P) in E'.
  rewrite !H1, !H2 by auto. split.
  - simpl in Ha. destruct Ha as [<-|[<-|[]]]; cbn [String.eqb].
    + simpl String.eqb. cbv iota. rewrite (average_perm m m' (fun l => l)); auto.
    + simpl String.eqb. cbv iota. rewrite (average_perm m m' unique); auto using unique_perm.
  - eexists _, _. split; [reflexivity|]. split; [reflexivity|]. cbn [bind].
    inversion MP; subst; simpl; split; auto; try tauto; try (split; discriminate).
    apply Permutation_map; auto.
Qed.
Lemma cos_ge x : 1 - x ^ 2 / 2 <= cos x.
Proof.
  assert (A : forall y, 0 <= y -> sin y <= y).
  { intros y Hy. destruct (Req_dec y 0) as [->|]; [rewrite sin_0; lra|]. left. apply x_gt_sin. lra. }
  assert (B : cos x = 1 - 2 * (sin (x / 2)) ^ 2).
  { replace x with (2 * (x / 2)) at 1 by field. rewrite cos_2a_sin. ring. }
  rewrite B. assert (D : sin (x / 2) ^ 2 <= (x / 2) ^ 2); [|lra].
  assert (S : Rabs (sin (x / 2)) <= Rabs (x / 2)).
  { destruct (Rle_dec 0 (x / 2)) as [H|H].
    - rewrite (Rabs_pos_eq (x / 2)) by auto. destruct (Rle_dec 0 (sin (x/2))) as [K|K].
      + rewrite Rabs_pos_eq; auto.
      + rewrite Rabs_left by lra. rewrite <- sin_neg.
        destruct (Rle_dec (x / 2) 1) as [L|L].
        * exfalso. apply K. apply sin_ge_0; pose proof PI2_3_2; lra.
        * pose proof (SIN_bound (- (x / 2))). lra.
    - rewrite (Rabs_left (x / 2)) by lra. replace (Rabs (sin (x / 2))) with (Rabs (sin (- (x / 2)))).
      2:{ rewrite sin_neg, Rabs_Ropp. reflexivity. }
      destruct (Rle_dec 0 (sin (- (x/2)))) as [K|K].
      + rewrite Rabs_pos_eq; auto. apply A. lra.
      + rewrite Rabs_left by lra. destruct (Rle_dec (- (x / 2)) 1) as [L|L].
        * exfalso. apply K. apply sin_ge_0; pose proof PI2_3_2; lra.
        * pose proof (SIN_bound (- (x / 2))). lra. }
  rewrite <- !(pow2_abs (sin _)), <- (pow2_abs (x / 2)).
  apply pow_incr. split; [apply Rabs_pos|exact S].
Qed.
Lemma median_order_wrong : exists alpha alpha' m m', Permutation alpha alpha' /\
  circ_median_default alpha = Ok (MOne m) /\ circ_median_default alpha' = Ok (MOne m') /\ ~ same_dir m m'.
Proof.
  exists [/ 1000; 0; 0; 0], [0; / 1000; 0; 0], (/ 1000), 0.
  split; [apply perm_swap|].
  assert (P : Permutation [/ 1000; 0; 0; 0] [0; / 1000; 0; 0]) by apply perm_swap.
  assert (R1 : isclose12 (circ_r [/ 1000; 0; 0; 0] None) 1 = true).
  { assert (V : valid_sample [/ 1000; 0; 0; 0] None) by (apply valid_none; discriminate).
    pose proof (circ_r_range _ _ V) as Rg. apply isclose12_1_true; [lra|].
    unfold circ_r, circ_r_s. fold (smp [/ 1000; 0; 0; 0] None).
    rewrite compute_C_eq, compute_S_eq, Csum_none, Ssum_none, wtotal_none.
    set (C := Rsum (map cos [/ 1000; 0; 0; 0]) / INR (length [/ 1000; 0; 0; 0])).
    assert (HC : 1 - / 100000 <= C).
    { unfold C. simpl. rewrite cos_0. pose proof (cos_ge (/ 1000)). simpl in H. lra. }
    rewrite <- (sqrt_square (1 - / 100000)) by lra.
    apply sqrt_le_1_alt.
    match goal with |- _ <= ?a + ?b => assert (0 <= b) by nra end. nra. }
  split; [apply median_early; auto|]. split.
  - apply median_early; auto. rewrite <- (circ_r_perm _ _ P). exact R1.
  - intros D. assert (/ 1000 = 0); [|lra].
    apply (same_dir_unique 0); auto; pose proof PI2_3_2; lra.
Qed.

(** * Whole turns *)
Lemma count_diff_turned l l' b b' : turned l l' -> same_dir b b' -> count_diff l b = count_diff l' b'.
Proof.
  intros T D. unfold count_diff.
  assert (E : map (fun ai => round5 (angmod0 (ai - b))) l = map (fun ai => round5 (angmod0 (ai - b'))) l').
  { induction T as [|x y l l' Dx T IH]; [reflexivity|]. simpl. f_equal; [|exact IH].
    f_equal. apply angmod0_eq_iff. apply same_dir_sub; auto. }
  rewrite E. assert (L : length l = length l') by (clear E; induction T; simpl; congruence). rewrite L. reflexivity.
Qed.
Lemma select_min_turned f g l l' : turned l l' ->
  (forall a b, In a l -> In b l' -> same_dir a b -> f a = g b) ->
  Forall2 same_dir (select_min (map f l) l) (select_min (map g l') l').
Proof.
  intros T H.
  assert (K : map f l = map g l').
  { induction T as [|x y l l' D T IH]; [reflexivity|]. simpl. f_equal.
    - apply H; simpl; auto.
    - apply IH. intros a b Ha Hb. apply H; simpl; auto. }
  rewrite <- K. unfold select_min. destruct (map f l) as [|k ks] eqn:E; [constructor|].
  rewrite <- E. generalize (Rlmin k ks). intros m. clear E K H.
  induction T as [|x y l l' D T IH]; [constructor|]. simpl.
  destruct (Reqb (f x) m); simpl; auto.
Qed.
Lemma Forall2_len {A B} (P : A -> B -> Prop) l l' : Forall2 P l l' -> length l = length l'.
Proof. induction 1; simpl; congruence. Qed.
Lemma pick_turned al al' l l' : length al = length al' -> Forall2 same_dir l l' ->
  med_dir (pick al l) (pick al' l').
Proof.
  intros L F. unfold pick. rewrite <- L, <- (Forall2_len _ _ _ F).
  destruct (Nat.eqb (length l) (length al)); [exact I|].
  destruct F as [|a b l l' D F]; [constructor|]. destruct F as [|a2 b2 l l' D2 F].
  - exact D.
  - repeat constructor; auto.
Qed.
Lemma med_mod_turned m m' : med_dir m m' -> med_mod m = med_mod m'.
Proof.
  destruct m, m'; simpl; try tauto.
  - intros D. f_equal. now apply angmod0_eq_iff.
  - intros F. f_equal. induction F; simpl; [auto|]. f_equal; auto. now apply angmod0_eq_iff.
Qed.
Lemma average_turned m m' : med_dir m m' -> average m (fun l => l) = average m' (fun l => l).
Proof.
  destruct m, m'; simpl; try tauto; intros D.
  - rewrite (proj1 circ_mean_invariant [a] [a0]); [reflexivity|]. constructor; auto.
  - rewrite (proj1 circ_mean_invariant l l0); auto.
Qed.
Lemma arc_dev5_turned l l' b b' : turned l l' -> same_dir b b' -> arc_dev5 l b = arc_dev5 l' b'.
Proof.
  intros T D. unfold arc_dev5. rewrite (Forall2_len _ _ _ T). do 3 f_equal.
  induction T as [|x y l l' Dx T IH]; [reflexivity|]. simpl. f_equal; [|exact IH].
  apply angular_distance_dir; auto.
Qed.
Lemma median_turned alpha alpha' meth b : alpha <> [] -> turned alpha alpha' ->
  isclose12 (circ_r alpha None) 1 = false ->
  (meth = "count"%string \/ meth = "deviation"%string /\ within_turn alpha /\ within_turn alpha') ->
  circ_median alpha None (Some meth) b "all"%string = circ_median alpha' None (Some meth) b "all"%string.
Proof.
  intros Hn T E Hm.
  assert (Hn' : alpha' <> []) by (destruct T; congruence).
  assert (L : length alpha = length alpha') by (apply (Forall2_len _ _ _ T)).
  pose proof E as E'. rewrite (proj1 (proj2 (proj2 circ_r_invariant)) alpha alpha' None T) in E'. unfold circ_r in E, E'.
  unfold circ_median. rewrite E, E', !weights_none_ones. cbn [negb].
  assert (G : forall m m', med_dir m m' ->
    (do m0 <- Ok m; do m'0 <- (if b then Ok (average m0 (fun l => l)) else Ok m0); Ok (med_mod m'0)) =
    (do m0 <- Ok m'; do m'0 <- (if b then Ok (average m0 (fun l => l)) else Ok m0); Ok (med_mod m'0))).
  { intros m m' D. cbn [bind]. destruct b; cbn [bind]; f_equal.
    - now rewrite (average_turned m m' D).
    - apply med_mod_turned, D. }
  destruct Hm as [->|(-> & W & W')].
  - simpl String.eqb. cbv iota. apply G. apply pick_turned; auto. apply select_min_turned; auto.
    intros a c _ _ D. apply count_diff_turned; auto.
  - simpl String.eqb. cbv iota. rewrite !deviation_median_eq by auto. apply G.
    apply pick_turned; auto. apply select_min_turned; auto.
    intros a c Ha Hc D. rewrite (dev5_arc alpha a), (dev5_arc alpha' c); auto. apply arc_dev5_turned; auto.
Qed.

(** * Concrete medians *)
Lemma circ_mean_single a : circ_mean [a] None = Fin (angmod0 a).
Proof.
  assert (R1 : circ_r [a] None = 1).
  { apply circ_r_one; [apply valid_none; discriminate|].
    assert (H : forall z, observed [a] None z -> z = a).
    { intros z (u & Hu & _). simpl in Hu. destruct Hu as [K|[]]; injection K as <- <-; reflexivity. }
    intros x y Hx Hy. rewrite (H x Hx), (H y Hy). apply same_dir_refl. }
  destruct (circ_mean_cases [a] None) as [[H _]|[_ H]]; [rewrite R1 in H; lra|].
  rewrite H. f_equal. unfold mean_dir. apply angmod0_eq_iff. apply arctan2_unique with 1; [lra| |].
  - rewrite compute_C_eq, Csum_none, wtotal_none. simpl. field.
  - rewrite compute_S_eq, Ssum_none, wtotal_none. simpl. field.
Qed.
Lemma median_default_eval alpha cands : alpha <> [] -> isclose12 (circ_r alpha None) 1 = false ->
  select_min (map (dev5 alpha) alpha) alpha = cands -> length cands <> length alpha ->
  circ_median_default alpha = Ok (med_mod (match circ_mean cands None with Fin x => MOne x | _ => MNaN end)).
Proof.
  intros Hn E S L. unfold circ_median_default, circ_median. unfold circ_r in E.
  rewrite E, weights_none_ones. cbn [negb]. simpl String.eqb. cbv iota.
  rewrite deviation_median_eq by auto. cbn [bind]. rewrite S. f_equal. f_equal.
  unfold pick. destruct (Nat.eqb_spec (length cands) (length alpha)); [congruence|].
  destruct cands as [|a [|b t]]; cbn [average med_list]; reflexivity.
Qed.
Lemma select_min_one f l1 a l2 : (forall b, In b (l1 ++ l2) -> f a < f b) ->
  select_min (map f (l1 ++ a :: l2)) (l1 ++ a :: l2) = [a].
Proof.
  intros H. destruct (select_min_filter f (l1 ++ a :: l2)) as [m E].
  assert (I : In a (select_min (map f (l1 ++ a :: l2)) (l1 ++ a :: l2))).
  { apply select_min_map. split; [apply in_or_app; right; left; auto|].
    intros b Hb. apply in_app_or in Hb. destruct Hb as [Hb|[<-|Hb]]; [|lra|];
    left; apply H, in_or_app; auto. }
  rewrite E in *. apply filter_In in I. destruct I as [_ I]. apply Reqb_true in I. subst m.
  rewrite filter_app. simpl. destruct (Reqb_spec (f a) (f a)); [|congruence].
  assert (Z : forall l, (forall b, In b l -> f a < f b) -> filter (fun b => Reqb (f b) (f a)) l = []).
  { induction l as [|x l IH]; intros Hl; [reflexivity|]. simpl.
    destruct (Reqb_spec (f x) (f a)) as [Ex|]; [specialize (Hl x (or_introl eq_refl)); lra|].
    apply IH. intros b Hb. apply Hl. right; auto. }
  rewrite (Z l1), (Z l2); [reflexivity| |]; intros b Hb; apply H, in_or_app; auto.
Qed.
Ltac dev_eval := unfold dev5, mean; cbn [map length repeat app];
  unfold Rabs; repeat destruct Rcase_abs; try lra.
