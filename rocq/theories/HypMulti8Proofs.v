From Verif Require Import Prelude NpModel NpProofs CircleSpec UtilsModel UtilsProofs DescModel DescProofs
  DescSpec DescApi DescApi2 Desc2Model Desc2Proofs Desc5Proofs Desc6Proofs ArcProofs HypProofs Hyp2Proofs HypGofSpec HypGofModel HypGofProofs
  HypGof3Proofs HypMultiModel HypMulti2Model HypMultiSpec HypMultiProofs HypMulti2Proofs HypMulti6Proofs.

(** * Partition of the observations by factor levels *)
Lemma pick_level (x : R) L k : NoDup L -> In k L -> Rsum (map (fun i => if Nat.eqb k i then x else 0) L) = x.
Proof.
  induction 1 as [|a L Na N IH]; intros H; [easy|]. cbn [map]. rewrite Rsum_cons. destruct H as [->|H].
  - rewrite Nat.eqb_refl. rewrite (Rsum_map_ext _ (fun _ => 0)); [rewrite Rsum_map_const; ring|].
    intros y Hy. destruct (Nat.eqb_spec k y) as [->|]; [contradiction|reflexivity].
  - rewrite IH by auto. destruct (Nat.eqb_spec k a) as [->|]; [contradiction|ring].
Qed.
Lemma partition_sum {A} (f : A -> nat) (h : A -> R) L d : NoDup L -> (forall o, In o d -> In (f o) L) ->
  Rsum (map (fun i => Rsum (map h (filter (fun o => Nat.eqb (f o) i) d))) L) = Rsum (map h d).
Proof.
  intros N. induction d as [|o d IH]; intros H.
  - cbn. rewrite Rsum_map_const. ring.
  - cbn [map]. rewrite Rsum_cons, <- IH by (intros; apply H; now right).
    rewrite <- (pick_level (h o) L (f o) N) by (apply H; now left). rewrite <- Rsum_map_plus. apply Rsum_map_ext.
    intros i _. cbn [filter]. destruct (Nat.eqb (f o) i); cbn [map]; rewrite ?Rsum_cons; ring.
Qed.
Lemma levels_NoDup f d : NoDup (levels f d).
Proof. apply NoDup_nodup. Qed.
Lemma levels_in f d o : In o d -> In (f o) (levels f d).
Proof. intros H. apply nodup_In, in_map, H. Qed.
Lemma levels_ex f d i : In i (levels f d) -> exists o, In o d /\ f o = i.
Proof. intros H. apply nodup_In in H. apply in_map_iff in H. destruct H as (o & E & H). eauto. Qed.
Lemma Rsum_ones {A} (l : list A) : Rsum (map (fun _ => 1) l) = INR (length l).
Proof. rewrite Rsum_map_const. ring. Qed.
Definition gsum (h : R -> R) (g : list R) : R := Rsum (map h g).
Lemma gsum_one g : gsum (fun _ => 1) g = INR (length g).
Proof. apply Rsum_ones. Qed.
Lemma group_total h f d : Rsum (map (fun i => gsum h (group_by f d i)) (levels f d)) = gsum h (angles_of d).
Proof.
  unfold gsum, group_by, angles_of.
  transitivity (Rsum (map (fun o : obs2 => h (fst o)) d)); [|now rewrite map_map].
  rewrite <- (partition_sum f (fun o => h (fst o)) (levels f d) d (levels_NoDup f d)) by apply levels_in.
  apply Rsum_map_ext. intros i _. now rewrite map_map.
Qed.
Lemma filter_and {A} (p q : A -> bool) l : filter (fun x => p x && q x) l = filter q (filter p l).
Proof. induction l as [|x l IH]; simpl; auto. destruct (p x); simpl; [destruct (q x)|]; congruence. Qed.
Lemma row_total h d i : Rsum (map (fun j => gsum h (cell d i j)) (levels fB d)) = gsum h (group_by fA d i).
Proof.
  unfold gsum, cell, group_by, angles_of.
  transitivity (Rsum (map (fun o : obs2 => h (fst o)) (filter (fun o => Nat.eqb (fA o) i) d))); [|now rewrite map_map].
  rewrite <- (partition_sum fB (fun o => h (fst o)) (levels fB d) (filter (fun o => Nat.eqb (fA o) i) d) (levels_NoDup fB d)).
  - apply Rsum_map_ext. intros j _. now rewrite map_map, filter_and.
  - intros o Ho. apply filter_In in Ho. apply levels_in, Ho.
Qed.
Lemma filter_comm {A} (p q : A -> bool) l : filter (fun x => p x && q x) l = filter p (filter q l).
Proof. rewrite <- filter_and. apply filter_ext. intros; apply andb_comm. Qed.
Lemma col_total h d j : Rsum (map (fun i => gsum h (cell d i j)) (levels fA d)) = gsum h (group_by fB d j).
Proof.
  unfold gsum, cell, group_by, angles_of.
  transitivity (Rsum (map (fun o : obs2 => h (fst o)) (filter (fun o => Nat.eqb (fB o) j) d))); [|now rewrite map_map].
  rewrite <- (partition_sum fA (fun o => h (fst o)) (levels fA d) (filter (fun o => Nat.eqb (fB o) j) d) (levels_NoDup fA d)).
  - apply Rsum_map_ext. intros i _. now rewrite map_map, filter_comm.
  - intros o Ho. apply filter_In in Ho. apply levels_in, Ho.
Qed.
Lemma Rsum_cells (F : list R -> R) d : Rsum (map F (hk_cells d)) =
  Rsum (map (fun i => Rsum (map (fun j => F (cell d i j)) (levels fB d))) (levels fA d)).
Proof.
  unfold hk_cells. rewrite flat_map_concat_map, concat_map, map_map. generalize (levels fA d) as L.
  induction L as [|i L IH]; [reflexivity|]. cbn [map concat]. rewrite Rsum_app, Rsum_cons, IH, map_map. reflexivity.
Qed.
Lemma cells_total h d : Rsum (map (gsum h) (hk_cells d)) = gsum h (angles_of d).
Proof.
  rewrite Rsum_cells, <- (group_total h fA d). apply Rsum_map_ext. intros i _. apply row_total.
Qed.
Lemma group_nonempty f d i : In i (levels f d) -> group_by f d i <> [].
Proof.
  intros H. destruct (levels_ex f d i H) as (o & Ho & E). unfold group_by, angles_of. intros Z. apply map_eq_nil in Z.
  assert (X : In o (filter (fun o => Nat.eqb (f o) i) d)) by (apply filter_In; split; auto; now apply Nat.eqb_eq).
  rewrite Z in X. destruct X.
Qed.

(** * Sums of squares *)
Lemma hk_q_eq g : hk_q g = gsum cos g ^ 2 / INR (length g) + gsum sin g ^ 2 / INR (length g).
Proof.
  unfold hk_q, hk_R. destruct g as [|a g].
  - unfold gsum. cbn [map length]. rewrite Rsum_nil. simpl INR. unfold Rdiv. ring.
  - rewrite circ_r_resultant by discriminate. rewrite resultant_sqr. unfold gsum, Rdiv. ring.
Qed.
Definition part (h : R -> R) (gs : list (list R)) : R := Rsum (map (fun g => gsum h g ^ 2 / INR (length g)) gs).
Definition mean_of (h : R -> R) (g : list R) : R := gsum h g / INR (length g).
Lemma part_between h gs : gs <> [] -> Forall (fun g => g <> []) gs ->
  let T := Rsum (map (gsum h) gs) ^ 2 / Rsum (map (fun g => INR (length g)) gs) in
  T <= part h gs /\ (part h gs = T <-> all_equal (map (mean_of h) gs)).
Proof.
  intros N H T. set (p := map (fun g => (INR (length g), mean_of h g)) gs).
  assert (Np : p <> []) by (destruct gs; [congruence|discriminate]).
  assert (L : forall g, In g gs -> 0 < INR (length g)).
  { intros g Hg. rewrite Forall_forall in H. specialize (H g Hg). apply lt_0_INR. destruct g; [congruence|simpl; lia]. }
  assert (P : Forall (fun q => 0 < fst q) p).
  { unfold p. rewrite Forall_map. apply Forall_forall. intros g Hg. cbn. auto. }
  assert (E : part h gs - T = Rsum (map (fun q => fst q * (snd q - wmean p) ^ 2) p)).
  { rewrite <- wss_eq by (apply Rgt_not_eq, wsum_pos; auto). unfold part, T, p. rewrite !map_map. cbn [fst snd].
    rewrite (Rsum_map_ext (fun g => INR (length g) * mean_of h g ^ 2) (fun g => gsum h g ^ 2 / INR (length g))).
    - rewrite (Rsum_map_ext (fun g => INR (length g) * mean_of h g) (gsum h)); [reflexivity|].
      intros g Hg. specialize (L g Hg). unfold mean_of. field. lra.
    - intros g Hg. specialize (L g Hg). unfold mean_of. field. lra. }
  pose proof (wss_nonneg p (wmean p) P) as G. split; [lra|].
  assert (MS : map snd p = map (mean_of h) gs) by (unfold p; rewrite map_map; reflexivity).
  rewrite <- MS, <- (wss_zero p Np P), <- E. split; lra.
Qed.
Definition total_T (d : list obs2) : R := (INR (length d) * circ_r (angles_of d) None) ^ 2 / INR (length d).
Lemma total_T_eq d : d <> [] -> total_T d = gsum cos (angles_of d) ^ 2 / INR (length d) + gsum sin (angles_of d) ^ 2 / INR (length d).
Proof.
  intros H. unfold total_T. assert (L : length (angles_of d) = length d) by apply map_length.
  rewrite <- L at 1. rewrite Rmult_comm, circ_r_resultant by (intros E; apply map_eq_nil in E; contradiction).
  rewrite resultant_sqr. unfold gsum, Rdiv. ring.
Qed.
Lemma main_between f d : d <> [] ->
  total_T d <= hk_main f d /\
  (hk_main f d = total_T d <-> forall i j, In i (levels f d) -> In j (levels f d) ->
     mean_of cos (group_by f d i) = mean_of cos (group_by f d j) /\ mean_of sin (group_by f d i) = mean_of sin (group_by f d j)).
Proof.
  intros H. set (gs := map (group_by f d) (levels f d)).
  assert (NL : levels f d <> []).
  { destruct d as [|o d]; [congruence|]. intros E. pose proof (levels_in f (o :: d) o ltac:(now left)) as X. rewrite E in X. destruct X. }
  assert (Ng : gs <> []) by (unfold gs; intros E; apply map_eq_nil in E; contradiction).
  assert (Fg : Forall (fun g => g <> []) gs).
  { unfold gs. rewrite Forall_map. apply Forall_forall. intros i Hi. now apply group_nonempty. }
  assert (GT : forall h, Rsum (map (gsum h) gs) = gsum h (angles_of d)).
  { intros h. unfold gs. rewrite map_map. apply group_total. }
  assert (GN : Rsum (map (fun g => INR (length g)) gs) = INR (length d)).
  { rewrite (Rsum_map_ext _ (gsum (fun _ => 1))) by (intros; now rewrite gsum_one).
    rewrite GT, gsum_one. unfold angles_of. now rewrite map_length. }
  destruct (part_between cos gs Ng Fg) as [C1 C2]. destruct (part_between sin gs Ng Fg) as [S1 S2].
  rewrite !GT, !GN in *.
  assert (E : hk_main f d = part cos gs + part sin gs).
  { unfold hk_main, part, gs. rewrite !map_map, <- Rsum_map_plus. apply Rsum_map_ext. intros i _. apply hk_q_eq. }
  rewrite E, total_T_eq by auto. split; [lra|]. split.
  - intros Q i j Hi Hj.
    assert (QC : part cos gs = gsum cos (angles_of d) ^ 2 / INR (length d)) by lra.
    assert (QS : part sin gs = gsum sin (angles_of d) ^ 2 / INR (length d)) by lra.
    apply C2 in QC. apply S2 in QS.
    split; [apply QC|apply QS]; unfold gs; rewrite map_map; apply (in_map (fun i => mean_of _ (group_by f d i))); auto.
  - intros Q. f_equal; [apply C2|apply S2]; unfold gs; rewrite map_map; intros x y Hx Hy;
    apply in_map_iff in Hx, Hy; destruct Hx as (i & <- & Hi); destruct Hy as (j & <- & Hj); apply Q; auto.
Qed.
Lemma cells_nonempty d : no_empty_cell d = true <-> Forall (fun c => c <> []) (hk_cells d).
Proof.
  unfold no_empty_cell. rewrite forallb_forall, Forall_forall. split; intros H c Hc; specialize (H c Hc).
  - apply negb_true_iff, Nat.eqb_neq in H. intros ->. now apply H.
  - apply negb_true_iff, Nat.eqb_neq. destruct c; [congruence|discriminate].
Qed.
Lemma resid_nonneg d : no_empty_cell d = true -> Rsum (map hk_q (hk_cells d)) <= INR (length d).
Proof.
  intros H. apply cells_nonempty in H. rewrite Forall_forall in H.
  replace (INR (length d)) with (Rsum (map (fun c => INR (length c)) (hk_cells d))).
  - apply Rsum_map_le. intros c Hc. specialize (H c Hc).
    assert (L : 0 < INR (length c)) by (apply lt_0_INR; destruct c; [congruence|simpl; lia]).
    unfold hk_q, hk_R. rewrite circ_r_resultant by auto. pose proof (resultant_nonneg c). pose proof (resultant_le c).
    apply (Rmult_le_reg_r (INR (length c))); auto. replace (resultant c ^ 2 / INR (length c) * INR (length c)) with (resultant c ^ 2) by (field; lra).
    nra.
  - rewrite (Rsum_map_ext _ (gsum (fun _ => 1))) by (intros; now rewrite gsum_one).
    rewrite cells_total, gsum_one. unfold angles_of. now rewrite map_length.
Qed.
Lemma hk_cells_length d : length (hk_cells d) = (length (levels fA d) * length (levels fB d))%nat.
Proof.
  unfold hk_cells. generalize (levels fA d) as L. induction L as [|i L IH]; [reflexivity|].
  cbn [flat_map length]. rewrite app_length, map_length, IH. lia.
Qed.
Lemma cellmean_eq d : d <> [] -> no_empty_cell d = true ->
  hk_cellmean d = Fin (INR (length d) / (INR (length (levels fA d)) * INR (length (levels fB d)))).
Proof.
  intros H N. unfold hk_cellmean. rewrite N. f_equal. unfold mean. rewrite map_length, hk_cells_length, mult_INR. f_equal.
  rewrite (Rsum_map_ext _ (gsum (fun _ => 1))) by (intros; now rewrite gsum_one).
  rewrite cells_total, gsum_one. unfold angles_of. now rewrite map_length.
Qed.
Lemma levels_pos f d : d <> [] -> 0 < INR (length (levels f d)).
Proof.
  intros H. apply lt_0_INR. destruct d as [|o d]; [congruence|].
  pose proof (levels_in f (o :: d) o ltac:(now left)) as X. destruct (levels f (o :: d)); [destruct X|simpl; lia].
Qed.
(** Balanced two-way layout. *)
Lemma interaction_ss (I J : list nat) (x : nat -> nat -> R) : I <> [] -> J <> [] ->
  let p := INR (length I) in let q := INR (length J) in
  let r i := Rsum (map (x i) J) in let c j := Rsum (map (fun i => x i j) I) in
  let t := Rsum (map r I) in
  Rsum (map (fun i => Rsum (map (fun j => x i j ^ 2) J)) I) - Rsum (map (fun i => r i ^ 2) I) / q
  - Rsum (map (fun j => c j ^ 2) J) / p + t ^ 2 / (p * q) =
  Rsum (map (fun i => Rsum (map (fun j => (x i j - r i / q - c j / p + t / (p * q)) ^ 2) J)) I).
Proof.
  intros NI NJ p q r c t.
  assert (Hp : p <> 0) by (apply not_0_INR; destruct I; [congruence|discriminate]).
  assert (Hq : q <> 0) by (apply not_0_INR; destruct J; [congruence|discriminate]).
  assert (TC : Rsum (map c J) = t) by (unfold c, t, r; symmetry; apply Rsum_swap).
  set (e := t / (p * q)).
  assert (Inner : forall i, Rsum (map (fun j => (x i j - r i / q - c j / p + e) ^ 2) J) =
    Rsum (map (fun j => x i j ^ 2) J) + ((- / q) * r i ^ 2 + ((- 2 / p) * Rsum (map (fun j => x i j * c j) J)
     + (2 * t / (p * q) * r i + (Rsum (map (fun j => c j ^ 2) J) / p ^ 2 + q * e ^ 2 - 2 * e * t / p))))).
  { intros i.
    rewrite (Rsum_map_ext _ (fun j => x i j ^ 2 + ((/ p ^ 2) * c j ^ 2 + ((- 2 / p) * (x i j * c j) +
       ((2 * e - 2 * r i / q) * x i j + ((2 * r i / (p * q) - 2 * e / p) * c j + (r i / q - e) ^ 2)))))) by (intros; field; auto).
    rewrite !Rsum_map_plus, !Rsum_map_scal, Rsum_map_const. fold q. fold (r i). rewrite TC. field. auto. }
  rewrite (Rsum_map_ext _ _ _ (fun i _ => Inner i)).
  assert (XC : Rsum (map (fun i => Rsum (map (fun j => x i j * c j) J)) I) = Rsum (map (fun j => c j ^ 2) J)).
  { rewrite Rsum_swap. apply Rsum_map_ext. intros j _. rewrite (Rsum_map_ext _ (fun i => c j * x i j)) by (intros; ring).
    rewrite Rsum_map_scal. fold (c j). ring. }
  set (C2 := Rsum (map (fun j => c j ^ 2) J)) in *.
  rewrite !Rsum_map_plus, !Rsum_map_scal, Rsum_map_const, XC. fold p. fold t. unfold e. field. auto.
Qed.
Definition balanced (m : nat) (d : list obs2) : Prop :=
  forall i j, In i (levels fA d) -> In j (levels fB d) -> length (cell d i j) = m.
Lemma inter_component h m d : d <> [] -> (0 < m)%nat -> balanced m d ->
  0 <= part h (hk_cells d) - part h (map (group_by fA d) (levels fA d)) - part h (map (group_by fB d) (levels fB d))
       + gsum h (angles_of d) ^ 2 / INR (length d).
Proof.
  intros H Hm B.
  assert (M : 0 < INR m) by now apply lt_0_INR.
  pose proof (levels_pos fA d H) as P. pose proof (levels_pos fB d H) as Q.
  set (p := INR (length (levels fA d))) in *. set (q := INR (length (levels fB d))) in *.
  assert (NI : levels fA d <> []) by (intros E; unfold p in P; rewrite E in P; simpl in P; lra).
  assert (NJ : levels fB d <> []) by (intros E; unfold q in Q; rewrite E in Q; simpl in Q; lra).
  assert (LA : forall i, In i (levels fA d) -> INR (length (group_by fA d i)) = INR m * q).
  { intros i Hi. rewrite <- gsum_one, <- row_total. rewrite (Rsum_map_ext _ (fun _ => INR m)).
    - rewrite Rsum_map_const. reflexivity.
    - intros j Hj. now rewrite gsum_one, B. }
  assert (LB : forall j, In j (levels fB d) -> INR (length (group_by fB d j)) = INR m * p).
  { intros j Hj. rewrite <- gsum_one, <- col_total. rewrite (Rsum_map_ext _ (fun _ => INR m)).
    - rewrite Rsum_map_const. reflexivity.
    - intros i Hi. now rewrite gsum_one, B. }
  assert (LN : INR (length d) = INR m * p * q).
  { transitivity (gsum (fun _ => 1) (angles_of d)); [rewrite gsum_one; unfold angles_of; now rewrite map_length|].
    rewrite <- (group_total (fun _ => 1) fA d). rewrite (Rsum_map_ext _ (fun _ => INR m * q)).
    - rewrite Rsum_map_const. fold p. ring.
    - intros i Hi. rewrite gsum_one. auto. }
  pose proof (interaction_ss (levels fA d) (levels fB d) (fun i j => gsum h (cell d i j)) NI NJ) as X. cbv zeta in X.
  fold p q in X.
  set (W := Rsum (map (fun i => Rsum (map (fun j => (gsum h (cell d i j) - Rsum (map (fun j0 => gsum h (cell d i j0)) (levels fB d)) / q
      - Rsum (map (fun i0 => gsum h (cell d i0 j)) (levels fA d)) / p
      + Rsum (map (fun i0 => Rsum (map (fun j0 => gsum h (cell d i0 j0)) (levels fB d))) (levels fA d)) / (p * q)) ^ 2) (levels fB d))) (levels fA d))) in X.
  assert (W0 : 0 <= W).
  { apply Rsum_map_nonneg. intros i _. apply Rsum_map_nonneg. intros j _. apply pow2_ge_0. }
  assert (E : part h (hk_cells d) - part h (map (group_by fA d) (levels fA d)) - part h (map (group_by fB d) (levels fB d))
       + gsum h (angles_of d) ^ 2 / INR (length d) = / INR m * W).
  { rewrite <- X. unfold part. rewrite Rsum_cells, !map_map.
    rewrite (Rsum_map_ext (fun i => Rsum (map (fun j => gsum h (cell d i j) ^ 2 / INR (length (cell d i j))) (levels fB d)))
      (fun i => / INR m * Rsum (map (fun j => gsum h (cell d i j) ^ 2) (levels fB d)))).
    2: { intros i Hi. rewrite <- Rsum_map_scal. apply Rsum_map_ext. intros j Hj. rewrite B by auto. unfold Rdiv. ring. }
    rewrite (Rsum_map_ext (fun i => gsum h (group_by fA d i) ^ 2 / INR (length (group_by fA d i)))
      (fun i => / (INR m * q) * Rsum (map (fun j => gsum h (cell d i j)) (levels fB d)) ^ 2)).
    2: { intros i Hi. rewrite LA by auto. rewrite row_total. unfold Rdiv. ring. }
    rewrite (Rsum_map_ext (fun j => gsum h (group_by fB d j) ^ 2 / INR (length (group_by fB d j)))
      (fun j => / (INR m * p) * Rsum (map (fun i => gsum h (cell d i j)) (levels fA d)) ^ 2)).
    2: { intros j Hj. rewrite LB by auto. rewrite col_total. unfold Rdiv. ring. }
    rewrite !Rsum_map_scal, LN.
    replace (gsum h (angles_of d)) with (Rsum (map (fun i => Rsum (map (fun j => gsum h (cell d i j)) (levels fB d))) (levels fA d))).
    2: { rewrite <- (group_total h fA d). apply Rsum_map_ext. intros i _. apply row_total. }
    field. lra. }
  rewrite E. apply Rmult_le_pos; auto. apply Rlt_le, Rinv_0_lt_compat, M.
Qed.
Lemma hk_q_part gs : Rsum (map hk_q gs) = part cos gs + part sin gs.
Proof. unfold part. rewrite <- Rsum_map_plus. apply Rsum_map_ext. intros g _. apply hk_q_eq. Qed.
Lemma inter_nonneg m d : d <> [] -> (0 < m)%nat -> balanced m d ->
  0 <= Rsum (map hk_q (hk_cells d)) - hk_main fA d - hk_main fB d + total_T d.
Proof.
  intros H Hm B. pose proof (inter_component cos m d H Hm B) as C. pose proof (inter_component sin m d H Hm B) as S.
  assert (MA : forall f, hk_main f d = part cos (map (group_by f d) (levels f d)) + part sin (map (group_by f d) (levels f d))).
  { intros f. unfold hk_main. rewrite <- hk_q_part, map_map. reflexivity. }
  rewrite hk_q_part, !MA, total_T_eq by auto. lra.
Qed.
Lemma balanced_no_empty m d : (0 < m)%nat -> balanced m d -> no_empty_cell d = true.
Proof.
  intros Hm B. apply cells_nonempty, Forall_forall. intros c Hc. unfold hk_cells in Hc. apply in_flat_map in Hc.
  destruct Hc as (i & Hi & Hc). apply in_map_iff in Hc. destruct Hc as (j & <- & Hj). intros E. specialize (B i j Hi Hj).
  rewrite E in B. simpl in B. lia.
Qed.

(** * The tables *)
Definition level_means_equal (f : obs2 -> nat) (d : list obs2) : Prop :=
  forall i j, In i (levels f d) -> In j (levels f d) ->
     mean_of cos (group_by f d i) = mean_of cos (group_by f d j) /\ mean_of sin (group_by f d i) = mean_of sin (group_by f d j).
Lemma hk_inter_table fcdf ccdf csf A1 d a b i r tot : d <> [] -> no_empty_cell d = true ->
  harrison_kanji_test fcdf ccdf csf A1 d true = Ok (HkF a b i r tot) ->
  exists ri sa sb si sr, i = Some ri /\ hk_ss a = Fin sa /\ hk_ss b = Fin sb /\ hk_ss ri = Fin si /\ hk_ss r = Fin sr /\
    hk_ss tot = Fin (sa + sb + si + sr) /\ 0 <= sa /\ 0 <= sb /\ 0 <= sr /\
    (sa = 0 <-> level_means_equal fA d) /\ (sb = 0 <-> level_means_equal fB d) /\
    (forall m, (0 < m)%nat -> balanced m d -> 0 <= si) /\
    exists da db di dr, hk_df a = Fin da /\ hk_df b = Fin db /\ hk_df ri = Fin di /\ hk_df r = Fin dr /\
      da = INR (length (levels fA d)) - 1 /\ db = INR (length (levels fB d)) - 1 /\
      hk_df tot = Fin (da + db + di + dr) /\ da + db + di + dr = INR (length d) - 1.
Proof.
  intros H N E. unfold harrison_kanji_test in E. rewrite circ_kappa_none in E. cbn [bind] in E.
  destruct (Rltb 2 _); [|discriminate]. cbv zeta in E. fold (total_T d) in E.
  unfold hk_cellsum in E. rewrite N in E. rewrite cellmean_eq in E by auto. cbn [fsub fadd fneg fmul] in E.
  injection E as <- <- <- <- <-.
  set (p := INR (length (levels fA d))) in *. set (q := INR (length (levels fB d))) in *. set (n := INR (length d)) in *.
  pose proof (levels_pos fA d H) as Pp. pose proof (levels_pos fB d H) as Pq. fold p in Pp. fold q in Pq.
  destruct (main_between fA d H) as [A1' A2]. destruct (main_between fB d H) as [B1 B2].
  pose proof (resid_nonneg d N) as RN. fold n in RN.
  eexists _, _, _, _, _. split; [reflexivity|]. cbn [hk_ss hk_df]. do 4 (split; [reflexivity|]).
  split; [f_equal; ring|]. split; [lra|]. split; [lra|]. split; [lra|].
  split; [unfold level_means_equal; rewrite <- A2; split; lra|].
  split; [unfold level_means_equal; rewrite <- B2; split; lra|].
  split; [intros m Hm Bm; pose proof (inter_nonneg m d H Hm Bm); lra|].
  eexists _, _, _, _. do 4 (split; [reflexivity|]). split; [reflexivity|]. split; [reflexivity|].
  assert (X : p - 1 + (q - 1) + (p - 1) * (q - 1) + p * q * (n / (p * q) + - (1)) = n - 1) by (field; lra).
  split; [f_equal; rewrite <- X; ring|exact X].
Qed.
Lemma hk_plain_table fcdf ccdf csf A1 d a b i r tot : d <> [] ->
  harrison_kanji_test fcdf ccdf csf A1 d false = Ok (HkF a b i r tot) ->
  i = None /\ exists sa sb sr, hk_ss a = Fin sa /\ hk_ss b = Fin sb /\ hk_ss r = Fin sr /\
    hk_ss tot = Fin (sa + sb + sr) /\ 0 <= sa /\ 0 <= sb /\
    (forall m, (0 < m)%nat -> balanced m d -> 0 <= sr) /\
    exists da db dr, hk_df a = Fin da /\ hk_df b = Fin db /\ hk_df r = Fin dr /\
      hk_df tot = Fin (INR (length d) - 1) /\
      da + db + dr = INR (length (levels fA d)) * INR (length (levels fB d)) - 1.
Proof.
  intros H E. unfold harrison_kanji_test in E. rewrite circ_kappa_none in E. cbn [bind] in E.
  destruct (Rltb 2 _); [|discriminate]. cbv zeta in E. fold (total_T d) in E.
  injection E as <- <- <- <- <-.
  destruct (main_between fA d H) as [A1' A2]. destruct (main_between fB d H) as [B1 B2].
  split; [reflexivity|]. eexists _, _, _. cbn [hk_ss hk_df]. do 3 (split; [reflexivity|]).
  split; [f_equal; ring|]. split; [lra|]. split; [lra|].
  split.
  { intros m Hm Bm. pose proof (inter_nonneg m d H Hm Bm). pose proof (resid_nonneg d (balanced_no_empty m d Hm Bm)). lra. }
  eexists _, _, _. do 4 (split; [reflexivity|]). ring.
Qed.
(** Small concentration: two observations at 0 in cell (0,0), one in (0,1); two at pi in
    (1,1), one in (1,0). *)
Definition hk_witness : list obs2 :=
  [(0, (0, 0)%nat); (0, (0, 0)%nat); (0, (0, 1)%nat); (PI, (1, 0)%nat); (PI, (1, 1)%nat); (PI, (1, 1)%nat)].
Lemma hk_inter_refuted fcdf ccdf csf A1 : A1 0 = 0 ->
  exists d a b x df pv, d <> [] /\ no_empty_cell d = true /\
    harrison_kanji_test fcdf ccdf csf A1 d true = Ok (HkChi a b (Fin x, df, pv)) /\ x < 0.
Proof.
  intros HA. exists hk_witness.
  assert (LA : levels fA hk_witness = [0; 1]%nat) by reflexivity.
  assert (LB : levels fB hk_witness = [0; 1]%nat) by reflexivity.
  assert (R0 : circ_r (angles_of hk_witness) None = 0).
  { assert (E : circ_r (angles_of hk_witness) None * INR 6 = 0).
    { change 6%nat with (length (angles_of hk_witness)). rewrite circ_r_resultant by discriminate.
      unfold resultant. cbn [angles_of hk_witness map fst]. rewrite !Rsum_cons, !Rsum_nil, cos_0, sin_0, cos_PI, sin_PI.
      transitivity (sqrt 0); [f_equal; ring|apply sqrt_0]. }
    apply Rmult_integral in E. destruct E as [E|E]; auto. simpl in E. lra. }
  assert (T0 : total_T hk_witness = 0) by (unfold total_T; rewrite R0; unfold Rdiv; ring).
  assert (MA : hk_main fA hk_witness = 6).
  { unfold hk_main. rewrite LA. cbn [map]. rewrite !Rsum_cons, Rsum_nil, !hk_q_eq. unfold gsum, group_by, angles_of, hk_witness.
    cbn [filter fA fB fst snd Nat.eqb map length]. rewrite !Rsum_cons, !Rsum_nil, cos_0, sin_0, cos_PI, sin_PI. simpl INR. field. }
  assert (MB : hk_main fB hk_witness = 2/3).
  { unfold hk_main. rewrite LB. cbn [map]. rewrite !Rsum_cons, Rsum_nil, !hk_q_eq. unfold gsum, group_by, angles_of, hk_witness.
    cbn [filter fA fB fst snd Nat.eqb map length]. rewrite !Rsum_cons, !Rsum_nil, cos_0, sin_0, cos_PI, sin_PI. simpl INR. field. }
  assert (MC : Rsum (map hk_q (hk_cells hk_witness)) = 6).
  { unfold hk_cells. rewrite LA, LB. cbn [flat_map map app]. rewrite !Rsum_cons, Rsum_nil, !hk_q_eq. unfold gsum, cell, angles_of, hk_witness.
    cbn [filter fA fB fst snd Nat.eqb andb map length]. rewrite !Rsum_cons, !Rsum_nil, cos_0, sin_0, cos_PI, sin_PI. simpl INR. field. }
  assert (NE : no_empty_cell hk_witness = true) by reflexivity.
  assert (K : kappa0 0 = 0).
  { unfold kappa0. destruct (Rltb_spec 0 (53/100)); [|lra]. field. }
  unfold harrison_kanji_test. rewrite R0. rewrite circ_kappa_none.
  replace (INR (length hk_witness) * 0 / INR (length hk_witness)) with 0 by (unfold Rdiv; ring).
  rewrite K. cbn [bind]. destruct (Rltb_spec 2 0); [lra|].
  rewrite HA, MA, MB. unfold hk_cellsum. rewrite NE, MC. cbn [fsub fadd fneg fmul].
  eexists _, _, _, _, _. split; [discriminate|]. split; [reflexivity|]. split; [reflexivity|].
  replace (INR (length hk_witness)) with 6 by (simpl; lra). lra.
Qed.
