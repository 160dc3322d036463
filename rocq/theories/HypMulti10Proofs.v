From Verif Require Import Prelude NpModel NpProofs CircleSpec UtilsModel UtilsProofs DescModel DescProofs
  DescSpec DescApi DescApi2 Desc2Model Desc2Proofs Desc5Proofs Desc6Proofs ArcProofs HypProofs HypSpec Hyp2Proofs HypGofSpec HypGofModel HypGofProofs
  HypGof3Proofs HypMultiModel HypMulti2Model HypMultiSpec HypMultiProofs HypMulti2Proofs HypMulti6Proofs HypMulti7Proofs HypMulti8Proofs.

(** * Change point: the second statistic in terms of the profile *)
Lemma phi_val logI0 x : phi logI0 x <> NaN -> phi logI0 x = Fin (x * A1inv x - logI0 (A1inv x)).
Proof. unfold phi. destruct (_ && _); [congruence|auto]. Qed.
Lemma cp_V_val logI0 alpha k v : (2 <= k <= length alpha - 2)%nat -> cp_V logI0 alpha k = Fin v ->
  v = split_profile A1inv logI0 alpha k.
Proof.
  intros Hk E. unfold cp_V in E.
  assert (K : INR k <> 0) by (apply not_0_INR; lia).
  assert (K2 : INR (length alpha - k) <> 0) by (apply not_0_INR; lia).
  replace (est_rho (firstn k alpha) * INR k / INR k) with (est_rho (firstn k alpha)) in E by (field; auto).
  replace (est_rho (skipn k alpha) * INR (length alpha - k) / INR (length alpha - k)) with (est_rho (skipn k alpha)) in E by (field; auto).
  destruct (phi_fin logI0 (est_rho (firstn k alpha))) as [N|(x & N)]; [rewrite N in E; discriminate|].
  destruct (phi_fin logI0 (est_rho (skipn k alpha))) as [M|(y & M)]; [rewrite N, M in E; discriminate|].
  rewrite (phi_val logI0 (est_rho (firstn k alpha))), (phi_val logI0 (est_rho (skipn k alpha))) in E by congruence.
  cbn in E. injection E as <-. unfold split_profile. rewrite !est_rho_resultant. fold (mean_length (firstn k alpha)) (mean_length (skipn k alpha)).
  rewrite minus_INR by lia. reflexivity.
Qed.
Lemma change_T2 logI0 alpha t : change_point_test logI0 alpha = Ok t ->
  (cp_tmax t = NaN <-> exists k, (2 <= k <= length alpha - 2)%nat /\
                         (one_direction (firstn k alpha) \/ one_direction (skipn k alpha))) /\
  (cp_tmax t <> NaN ->
    let n := length alpha in let V := split_profile A1inv logI0 alpha in
    (2 <= S (cp_kt t) <= n - 2)%nat /\ cp_tmax t = Fin (V (S (cp_kt t))) /\
    (forall k, (2 <= k <= n - 2)%nat -> V k <= V (S (cp_kt t))) /\
    (forall k, (2 <= k <= cp_kt t)%nat -> V k < V (S (cp_kt t)))).
Proof.
  intros H. destruct (change_T logI0 alpha t H) as [A B]. split; [exact A|]. intros N n V.
  assert (E : exists v, cp_tmax t = Fin v).
  { unfold change_point_test in H. destruct (Nat.ltb _ 4); [discriminate|]. injection H as <-. cbn [cp_tmax] in *.
    unfold fmax in *. destruct (first_nan _ _); [congruence|eauto]. }
  destruct E as (v & E). destruct (B v E) as (B1 & B2 & B3 & B4).
  assert (F : forall k, (2 <= k <= n - 2)%nat -> cp_V logI0 alpha k = Fin (V k)).
  { intros k Hk. destruct (cp_V_nan logI0 alpha k Hk) as [[Z|(x & Z)] C].
    - exfalso. apply N, A. exists k. split; auto. now apply C.
    - rewrite Z. f_equal. now apply (cp_V_val logI0). }
  assert (Ev : v = V (S (cp_kt t))) by (rewrite (F _ B1) in B2; congruence).
  split; auto. split; [congruence|]. split; intros k Hk; rewrite <- Ev.
  - apply (B3 k); auto.
  - apply (B4 k); auto. apply F. unfold n. lia.
Qed.

(** * Two-way tables *)
Lemma in_levels f d i : In i (levels f d) <-> In i (map f d).
Proof. apply nodup_In. Qed.
Lemma levels_count f d : level_count f d (length (levels f d)).
Proof. exists (levels f d). split; [apply NoDup_nodup|]. split; auto. intros. apply in_levels. Qed.
Lemma level_count_unique f d p : level_count f d p -> p = length (levels f d).
Proof.
  intros (l & N & I & <-). apply Permutation_length, NoDup_Permutation; auto; [apply NoDup_nodup|].
  intros i. now rewrite I, in_levels.
Qed.
Lemma cells_balanced m d : cells_of_size m d -> balanced m d.
Proof. intros H i j Hi Hj. apply in_levels in Hi, Hj. exact (H i j Hi Hj). Qed.
Lemma cells_filled_bool d : cells_filled d -> no_empty_cell d = true.
Proof.
  intros H. unfold no_empty_cell. apply forallb_forall. intros c Hc. unfold hk_cells in Hc. apply in_flat_map in Hc.
  destruct Hc as (i & Hi & Hc). apply in_map_iff in Hc. destruct Hc as (j & <- & Hj). apply in_levels in Hi, Hj.
  apply negb_true_iff, Nat.eqb_neq. specialize (H i j Hi Hj). change (at_cell d i j) with (cell d i j) in H.
  destruct (cell d i j); [congruence|discriminate].
Qed.
Lemma means_equal f d : level_means_equal f d <-> same_mean_vectors f d.
Proof.
  unfold level_means_equal, same_mean_vectors. split; intros H i j Hi Hj; apply H; now apply in_levels.
Qed.
Lemma hk_inter_table2 fcdf ccdf csf A1 d a b i r tot p q : d <> [] -> cells_filled d -> level_count lvA d p -> level_count lvB d q ->
  harrison_kanji_test fcdf ccdf csf A1 d true = Ok (HkF a b i r tot) ->
  exists ri sa sb si sr, i = Some ri /\ hk_ss a = Fin sa /\ hk_ss b = Fin sb /\ hk_ss ri = Fin si /\ hk_ss r = Fin sr /\
    hk_ss tot = Fin (sa + sb + si + sr) /\ sa + sb + si + sr = INR (length d) - resultant (map fst d) ^ 2 / INR (length d) /\
    0 <= sa /\ 0 <= sb /\ 0 <= sr /\
    (sa = 0 <-> same_mean_vectors lvA d) /\ (sb = 0 <-> same_mean_vectors lvB d) /\
    (forall m, (0 < m)%nat -> cells_of_size m d -> 0 <= si) /\
    exists da db di dr, hk_df a = Fin da /\ hk_df b = Fin db /\ hk_df ri = Fin di /\ hk_df r = Fin dr /\
      da = INR p - 1 /\ db = INR q - 1 /\ di = da * db /\
      hk_df tot = Fin (da + db + di + dr) /\ da + db + di + dr = INR (length d) - 1.
Proof.
  intros N F P Q H. pose proof (cells_filled_bool d F) as NE.
  destruct (hk_inter_table fcdf ccdf csf A1 d a b i r tot N NE H) as
    (ri & sa & sb & si & sr & E0 & E1 & E2 & E3 & E4 & E5 & S1 & S2 & S3 & M1 & M2 & SI & da & db & di & dr & D1 & D2 & D3 & D4 & D5 & D6 & D7 & D8).
  rewrite (level_count_unique lvA d p P), (level_count_unique lvB d q Q).
  exists ri, sa, sb, si, sr. repeat (split; [assumption|]).
  assert (T : sa + sb + si + sr = INR (length d) - resultant (map fst d) ^ 2 / INR (length d)).
  { assert (X : hk_ss tot = Fin (INR (length d) - total_T d)).
    { unfold harrison_kanji_test in H. rewrite circ_kappa_none in H. cbn [bind] in H.
      destruct (Rltb 2 _); [|discriminate]. injection H as _ _ _ _ <-. reflexivity. }
    rewrite X in E5. injection E5 as E5. rewrite <- E5. unfold total_T.
    assert (L : length (angles_of d) = length d) by apply map_length.
    assert (RR : INR (length d) * circ_r (angles_of d) None = resultant (map fst d)).
    { rewrite Rmult_comm, <- L. apply circ_r_resultant. intros Z; apply map_eq_nil in Z; contradiction. }
    exact (f_equal (fun x => INR (length d) - x ^ 2 / INR (length d)) RR). }
  split; [exact T|]. repeat (split; [assumption|]).
  split; [now rewrite M1; apply means_equal|]. split; [now rewrite M2; apply means_equal|].
  split; [intros m Hm B; apply (SI m Hm), cells_balanced, B|].
  exists da, db, di, dr. repeat (split; [assumption|]).
  assert (DI : di = da * db).
  { unfold harrison_kanji_test in H. rewrite circ_kappa_none in H. cbn [bind] in H.
    destruct (Rltb 2 _); [|discriminate]. injection H as <- <- EI _ _. rewrite E0 in EI. injection EI as <-. cbn [hk_df] in *.
    injection D1 as <-. injection D2 as <-. injection D3 as <-. reflexivity. }
  split; [exact DI|]. split; assumption.
Qed.
Lemma hk_plain_table2 fcdf ccdf csf A1 d a b i r tot p q : d <> [] -> level_count lvA d p -> level_count lvB d q ->
  harrison_kanji_test fcdf ccdf csf A1 d false = Ok (HkF a b i r tot) ->
  i = None /\ exists sa sb sr, hk_ss a = Fin sa /\ hk_ss b = Fin sb /\ hk_ss r = Fin sr /\
    hk_ss tot = Fin (sa + sb + sr) /\ 0 <= sa /\ 0 <= sb /\
    (forall m, (0 < m)%nat -> cells_of_size m d -> 0 <= sr) /\
    exists da db dr, hk_df a = Fin da /\ hk_df b = Fin db /\ hk_df r = Fin dr /\
      hk_df tot = Fin (INR (length d) - 1) /\ da + db + dr = INR p * INR q - 1.
Proof.
  intros N P Q H. destruct (hk_plain_table fcdf ccdf csf A1 d a b i r tot N H) as (E0 & sa & sb & sr & E1 & E2 & E3 & E4 & S1 & S2 & SR & D).
  rewrite (level_count_unique lvA d p P), (level_count_unique lvB d q Q).
  split; auto. exists sa, sb, sr. repeat (split; [assumption|]). split; [|exact D].
  intros m Hm B. apply (SR m Hm), cells_balanced, B.
Qed.
Lemma hk_inter_refuted2 fcdf ccdf csf A1 : A1 0 = 0 ->
  exists d a b x df pv, cells_filled d /\
    harrison_kanji_test fcdf ccdf csf A1 d true = Ok (HkChi a b (Fin x, df, pv)) /\ x < 0.
Proof.
  intros H. destruct (hk_inter_refuted fcdf ccdf csf A1 H) as (d & a & b & x & df & pv & Nd & Ne & E & X).
  exists d, a, b, x, df, pv. split; auto. intros i j Hi Hj Z.
  unfold no_empty_cell in Ne. rewrite forallb_forall in Ne. specialize (Ne (cell d i j)).
  change (at_cell d i j) with (cell d i j) in Z. rewrite Z in Ne. discriminate Ne.
  unfold hk_cells. apply in_flat_map. exists i. split; [now apply in_levels|]. apply in_map_iff. exists j. split; auto. now apply in_levels.
Qed.
