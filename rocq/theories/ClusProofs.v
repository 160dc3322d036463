From Verif Require Import Prelude NpModel NpProofs CircleSpec UtilsModel UtilsProofs DescModel DescProofs
  DescSpec DescApi DescApi2 HypProofs HypMultiModel HypMulti2Model HypMultiSpec HypMultiProofs HypMulti7Proofs
  ClusModel ClusSpec.
From Coq Require Import Sorted.

(** * Metrics *)
Lemma metric_measured m x y : m <> Geodesic \/ Rabs (x - y) <= 2 * PI ->
  Rabs (circ_dist m x y) = measured m (angular_distance x y).
Proof.
  intros H. pose proof (angular_distance_range x y) as Rg. pose proof PI_pos as Hp. destruct m; cbn [measured].
  - apply center_abs.
  - destruct H as [H|H]; [congruence|].
    rewrite (UtilsProofs.arc_dist_unique _ _ _ _ (geodesic_spec x y H) (angular_distance_arc x y)).
    apply Rabs_right. lra.
  - rewrite angsep_spec. apply Rabs_right. pose proof (COS_bound (angular_distance x y)). lra.
  - rewrite chord_spec. apply Rabs_right. assert (0 <= sin (angular_distance x y / 2)) by (apply sin_ge_0; lra). lra.
Qed.
Lemma measured_lt m d d' : 0 <= d -> d < d' -> d' <= PI -> measured m d < measured m d'.
Proof.
  intros H1 H2 H3. pose proof PI_pos. destruct m; cbn [measured]; auto.
  - assert (cos d' < cos d) by (apply cos_decreasing_1; lra). lra.
  - apply Rmult_lt_compat_l; [lra|]. apply sin_increasing_1; lra.
Qed.
Lemma measured_le m d d' : 0 <= d <= PI -> 0 <= d' <= PI -> measured m d <= measured m d' -> d <= d'.
Proof.
  intros H1 H2 H. destruct (Rle_or_lt d d') as [L|L]; auto.
  pose proof (measured_lt m d' d). lra.
Qed.
Lemma measured_nonneg m d : 0 <= d <= PI -> 0 <= measured m d.
Proof.
  intros H. pose proof PI_pos. destruct m; cbn [measured]; try lra.
  - pose proof (COS_bound d). lra.
  - assert (0 <= sin (d / 2)) by (apply sin_ge_0; lra). lra.
Qed.
Lemma arc_eq x y e : is_arc_dist x y e -> e = angular_distance x y.
Proof. intros H. eapply UtilsProofs.arc_dist_unique; eauto. apply angular_distance_arc. Qed.
Lemma metric_abs_nonneg m x y : m <> Center -> Rabs (x - y) <= 2 * PI -> Rabs (circ_dist m x y) = circ_dist m x y.
Proof.
  intros H K. apply Rabs_right. pose proof PI_pos. destruct m; try congruence.
  - cbn [circ_dist]. unfold circ_dist_geodesic. apply Rle_ge. pose proof (Rabs_pos (x - y)).
    assert (Rabs (PI - Rabs (x - y)) <= PI) by (apply Rabs_le; lra). lra.
  - cbn [circ_dist]. unfold circ_dist_angsep. pose proof (COS_bound (x - y)). lra.
  - cbn [circ_dist]. unfold circ_dist_chord. apply Rle_ge, sqrt_pos.
Qed.

(** * Centres *)
Lemma len_pos {A} (g : list A) : g <> [] -> 0 < INR (length g).
Proof. intros H. apply lt_0_INR. destruct g; [congruence|simpl; lia]. Qed.
Lemma mr_snd g : snd (circ_mean_and_r g None) = circ_r g None.
Proof.
  unfold circ_mean_and_r, circ_r. destruct (circ_mean_and_r_s_cases (combine g (weights g None))) as [[_ E]|[_ E]]; now rewrite E.
Qed.
Lemma centre_mr g : g <> [] -> centre g (fst (circ_mean_and_r g None)).
Proof.
  intros N. pose proof (len_pos g N) as L. unfold centre. rewrite <- (circ_r_resultant g N).
  unfold circ_mean_and_r, circ_r. fold (smp g None).
  destruct (circ_mean_and_r_s_cases (smp g None)) as [[H E]|[H E]]; rewrite E; cbn [fst].
  - left. split; auto. nra.
  - right. split; [nra|]. exists (mean_dir (smp g None)). split; auto. split; [apply mean_dir_range|].
    assert (P : 0 < wtotal (smp g None)) by (rewrite wtotal_none; exact L).
    destruct (mean_dir_polar (smp g None) P) as (E1 & E2 & _); [lra|].
    pose proof (circ_r_resultant g N) as RR. unfold circ_r in RR. fold (smp g None) in RR. rewrite RR.
    rewrite resultant_Rlen. rewrite Csum_none in E1. rewrite Ssum_none in E2. auto.
Qed.
Lemma centre_unique g x y : g <> [] -> centre g x -> centre g y -> x = y.
Proof.
  intros N. pose proof (len_pos g N) as L. intros [[A ->]|[A (c & -> & Hc & E1 & E2)]] [[B ->]|[B (d & -> & Hd & F1 & F2)]]; auto; try lra.
  f_equal. assert (R0 : 0 < resultant g) by nra.
  assert (S : same_dir c d).
  { apply cos_sin_same_dir; apply Rmult_eq_reg_l with (resultant g); lra. }
  transitivity (angmod0 c).
  - symmetry. apply angmod0_unique; auto. apply same_dir_refl.
  - apply angmod0_unique; auto. now apply same_dir_sym.
Qed.
Lemma centre_is g x : g <> [] -> centre g x -> fst (circ_mean_and_r g None) = x.
Proof. intros N H. eapply centre_unique; eauto. now apply centre_mr. Qed.
Lemma centre_fin_range g c : centre g (Fin c) -> 0 <= c < 2 * PI.
Proof. intros [[_ H]|[_ (d & E & H & _)]]; [discriminate|]. injection E as ->. exact H. Qed.
Lemma centre_perm g g' x : Permutation g g' -> centre g x -> centre g' x.
Proof.
  intros P. unfold centre, resultant. rewrite (Permutation_length P).
  rewrite (Rsum_perm _ _ (Permutation_map cos P)), (Rsum_perm _ _ (Permutation_map sin P)). auto.
Qed.
Lemma mr_perm g g' : g <> [] -> Permutation g g' -> circ_mean_and_r g None = circ_mean_and_r g' None.
Proof.
  intros N P. assert (N' : g' <> []) by (intros ->; apply Permutation_sym, Permutation_nil in P; congruence).
  rewrite (surjective_pairing (circ_mean_and_r g None)), (surjective_pairing (circ_mean_and_r g' None)). f_equal.
  - symmetry. apply centre_is; auto. eapply centre_perm; [exact P|now apply centre_mr].
  - rewrite !mr_snd. apply Rmult_eq_reg_r with (INR (length g)); [|pose proof (len_pos g N); lra].
    rewrite circ_r_resultant by auto. rewrite (Permutation_length P), circ_r_resultant by auto.
    unfold resultant. rewrite (Rsum_perm _ _ (Permutation_map cos P)), (Rsum_perm _ _ (Permutation_map sin P)). auto.
Qed.

(** * Floats *)
Lemma fllt_trans_false x b d : fllt x b = false -> fllt d b = true -> fllt x d = false.
Proof.
  destruct x, b, d; cbn; try discriminate; auto. rewrite Rltb_true, !Rltb_false. lra.
Qed.
Lemma fargmin_nan l : (exists i, (i < length l)%nat /\ nth_error l i = Some NaN) -> nth_error l (fargmin l) = Some NaN.
Proof.
  intros (i & Hi & E). unfold fargmin.
  assert (G : forall l k i, nth_error l i = Some NaN -> exists j, first_nan k l = Some (k + j)%nat /\ nth_error l j = Some NaN).
  { clear. induction l as [|x l IH]; intros k i E; [destruct i; discriminate|].
    cbn [first_nan]. destruct x; cbn [is_nan]; try (destruct i as [|i]; [discriminate|]; destruct (IH (S k) i E) as (j & -> & F); exists (S j); split; auto; f_equal; lia).
    exists 0%nat. split; auto. }
  destruct (G l 0%nat i E) as (j & -> & F). exact F.
Qed.
Lemma fargmin_lt l : l <> [] -> (fargmin l < length l)%nat.
Proof.
  intros N. unfold fargmin. destruct (first_nan 0 l) as [i|] eqn:E.
  - assert (G : forall l k i, first_nan k l = Some i -> (i < k + length l)%nat).
    { clear. induction l as [|x l IH]; intros k i; cbn [first_nan length]; [discriminate|].
      destruct (is_nan x); [intros H; injection H as <-; lia|]. intros H. apply IH in H. lia. }
    apply G in E. lia.
  - destruct (argmin_spec (map fval l)) as (H & _); [destruct l; [congruence|discriminate]|].
    now rewrite map_length in H.
Qed.
Lemma fargmin_fin l : l <> [] -> fargmin (map Fin l) = argmin l.
Proof.
  intros N. unfold fargmin. rewrite (proj2 (first_nan_none (map Fin l) 0)).
  - rewrite map_map. cbn [fval]. now rewrite map_id.
  - intros x Hx. apply in_map_iff in Hx. destruct Hx as (? & <- & _). discriminate.
Qed.

(** * Pairs *)
Fixpoint pairs {A} (l : list A) : list (A * A) :=
  match l with [] => [] | x :: t => map (fun y => (x, y)) t ++ pairs t end.
Lemma pairs_split {A} (l : list A) x y : In (x, y) (pairs l) <-> exists l1 l2 l3, l = l1 ++ x :: l2 ++ y :: l3.
Proof.
  induction l as [|z l IH]; cbn [pairs].
  - split; [easy|]. intros (l1 & ? & ? & H). destruct l1; discriminate.
  - rewrite in_app_iff, in_map_iff, IH. split.
    + intros [(u & E & H)|(l1 & l2 & l3 & ->)].
      * injection E as -> ->. apply in_split in H. destruct H as (l2 & l3 & ->). exists [], l2, l3. reflexivity.
      * exists (z :: l1), l2, l3. reflexivity.
    + intros (l1 & l2 & l3 & E). destruct l1 as [|w l1]; injection E as <- ->.
      * left. exists y. split; auto. apply in_or_app; right; left; auto.
      * right. exists l1, l2, l3. reflexivity.
Qed.
Lemma pairs_map {A B} (f : A -> B) l : pairs (map f l) = map (fun p => (f (fst p), f (snd p))) (pairs l).
Proof.
  induction l as [|x l IH]; cbn; auto. rewrite map_app, IH. f_equal. rewrite !map_map. reflexivity.
Qed.
Lemma perm_pairs {A} (l : list A) x y r : Permutation l (x :: y :: r) ->
  (In (x, y) (pairs l) \/ In (y, x) (pairs l)) .
Proof.
  intros P. assert (Hx : In x l) by (eapply Permutation_in; [apply Permutation_sym, P|left; auto]).
  apply in_split in Hx. destruct Hx as (l1 & l2 & ->).
  assert (Q : Permutation (l1 ++ l2) (y :: r)).
  { apply Permutation_cons_inv with x. eapply Permutation_trans; [|exact P]. apply Permutation_middle. }
  assert (Hy : In y (l1 ++ l2)) by (eapply Permutation_in; [apply Permutation_sym, Q|left; auto]).
  apply in_app_or in Hy. destruct Hy as [Hy|Hy]; apply in_split in Hy; destruct Hy as (m1 & m2 & ->).
  - right. apply pairs_split. exists m1, m2, l2. now rewrite <- app_assoc.
  - left. apply pairs_split. exists l1, m1, m2. reflexivity.
Qed.
Definition scan_step (m : metric) (best : best_t) (q : (nat * fl) * (nat * fl)) : best_t :=
  let d := fdist m (snd (fst q)) (snd (snd q)) in
  if fllt d (fst best) then (d, Some (fst (fst q), fst (snd q))) else best.
Lemma scan_row_fold m ci mi l : forall best,
  scan_row m ci mi l best = fold_left (scan_step m) (map (fun y => ((ci, mi), y)) l) best.
Proof. induction l as [|[cj mj] l IH]; intros best; cbn; auto. Qed.
Lemma scan_fold m l : forall best, scan m l best = fold_left (scan_step m) (pairs l) best.
Proof.
  induction l as [|[ci mi] l IH]; intros best; cbn [scan pairs]; auto.
  now rewrite fold_left_app, <- scan_row_fold, IH.
Qed.
Definition qdist (m : metric) (q : (nat * fl) * (nat * fl)) : fl := fdist m (snd (fst q)) (snd (snd q)).
Lemma scan_steps m l : forall best, let best' := fold_left (scan_step m) l best in
  (best' = best /\ forall q, In q l -> fllt (qdist m q) (fst best) = false) \/
  (exists q, In q l /\ best' = (qdist m q, Some (fst (fst q), fst (snd q))) /\ fllt (qdist m q) (fst best) = true /\
     forall q', In q' l -> fllt (qdist m q') (qdist m q) = false).
Proof.
  induction l as [|q l IH]; intros best; cbn [fold_left]; cbv zeta in *.
  - left. split; auto. easy.
  - assert (SS : scan_step m best q = if fllt (qdist m q) (fst best) then (qdist m q, Some (fst (fst q), fst (snd q))) else best) by reflexivity.
    rewrite SS. clear SS. destruct (fllt (qdist m q) (fst best)) eqn:E.
    + destruct (IH (qdist m q, Some (fst (fst q), fst (snd q)))) as [[-> H]|(q' & I & -> & L & H)]; cbn [fst] in *.
      * right. exists q. split; [left; auto|]. split; auto. split; auto. intros q' [<-|I].
        { destruct (qdist m q); cbn; auto. apply Rltb_false. lra. }
        now apply H.
      * right. exists q'. split; [right; auto|]. split; auto. split.
        { clear -E L. destruct (qdist m q'), (qdist m q), (fst best); cbn in *; try discriminate; auto.
          rewrite Rltb_true in *. lra. }
        intros q'' [<-|I']; auto.
        { clear -L. destruct (qdist m q'), (qdist m q); cbn in *; try discriminate; auto.
          rewrite Rltb_true in L. rewrite Rltb_false. lra. }
    + destruct (IH best) as [[-> H]|(q' & I & -> & L & H)].
      * left. split; auto. intros q' [<-|I]; auto.
      * right. exists q'. split; [right; auto|]. split; auto. split; auto.
        intros q'' [<-|I']; auto. eapply fllt_trans_false; eauto.
Qed.
