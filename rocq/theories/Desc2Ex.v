(** Statements at the level of the API for C19-C25, C74-C78, and the examples that
    stand beside the theorems. *)
From Coq Require Import Sorting.Sorted.
From Verif Require Import Prelude NpModel NpProofs CircleSpec Desc2Spec UtilsModel UtilsProofs
  DescModel DescProofs DescSpec DescApi DescApi2 DescEx Desc2Model Desc2Proofs ArcProofs Desc3Proofs
  Desc4Proofs Desc5Proofs Desc6Proofs Desc7Proofs.

(** Below this resultant length the early exit of the median is not taken. *)
Definition conc_limit : R := 1 - (/ 100000 + / 1000000000000).
Lemma not_concentrated r : r < conc_limit -> isclose12 r 1 = false.
Proof.
  unfold conc_limit. intros H1. unfold isclose12, isclose_tol. apply Rleb_false.
  rewrite Rabs_minus_sym, (Rabs_pos_eq (1 - r)), Rabs_R1 by lra. lra.
Qed.
Lemma arc_len_eq a b : angular_distance a b = arc_len a b.
Proof.
  destruct (angular_distance_arc a b) as [(k & E) M]. set (d := angular_distance a b) in *.
  pose proof PI2_3_2 as P3.
  assert (C : cos d = cos (a - b)).
  { rewrite E. unfold Rabs. destruct (Rcase_abs _).
    - rewrite cos_neg. apply same_dir_cos. exists k. ring.
    - apply same_dir_cos. exists k. ring. }
  assert (R0 : 0 <= d) by (rewrite E; apply Rabs_pos).
  assert (R1 : d <= PI).
  { destruct (Rle_dec d PI) as [|N]; auto. exfalso.
    unfold Rabs in E. destruct (Rcase_abs (a - b + 2 * PI * IZR k)) as [L|L].
    - specialize (M (k + 1)%Z). rewrite plus_IZR in M. unfold Rabs in M. destruct (Rcase_abs _); lra.
    - specialize (M (k - 1)%Z). rewrite minus_IZR in M. unfold Rabs in M. destruct (Rcase_abs _); lra. }
  unfold arc_len. rewrite <- C. symmetry. apply acos_cos. lra.
Qed.
Lemma mean_arc5_eq alpha b : arc_dev5 alpha b = mean_arc5 alpha b.
Proof.
  unfold arc_dev5, mean_arc5. rewrite (map_ext _ (fun a => arc_len a b)); [reflexivity|].
  intros a. apply arc_len_eq.
Qed.
(** C19 *)
Lemma deviation_median_least alpha : alpha <> [] -> within_turn alpha ->
  circ_r alpha None < conc_limit ->
  exists m, circ_median alpha None (Some "deviation"%string) false "all"%string = Ok m /\
    (m = MNaN <-> forall a b, In a alpha -> In b alpha -> mean_arc5 alpha a = mean_arc5 alpha b) /\
    (m <> MNaN -> med_list m <> [] /\ forall x, In x (med_list m) <->
       exists a, 0 <= x < 2 * PI /\ same_dir x a /\ In a alpha /\
                 forall b, In b alpha -> mean_arc5 alpha a <= mean_arc5 alpha b).
Proof.
  intros Hn W Hr. destruct (circ_median_deviation_api alpha Hn W (not_concentrated _ Hr)) as (m & E & H1 & H2).
  exists m. split; [exact E|]. split.
  - rewrite H1. split; intros H a b Ha Hb; specialize (H a b Ha Hb); rewrite ?mean_arc5_eq in *; auto.
  - intros N. destruct (H2 N) as [H3 H4]. split; auto. intros x. rewrite H4. split.
    + intros (a & -> & Ha & Hm). exists a. split; [apply angmod0_range|]. split; [apply angmod0_same_dir|].
      split; auto. intros b Hb. rewrite <- !mean_arc5_eq. auto.
    + intros (a & Hx & D & Ha & Hm). exists a. split.
      * symmetry. apply angmod0_unique; auto.
      * split; auto. intros b Hb. rewrite !mean_arc5_eq. auto.
Qed.
Lemma arc_len_PI2 : arc_len 0 (PI / 2) = PI / 2 /\ arc_len (PI / 2) (PI / 2) = 0 /\ arc_len (5 * PI) (PI / 2) = PI / 2 /\
  arc_len 0 (5 * PI) = PI /\ arc_len (PI / 2) (5 * PI) = PI / 2 /\ arc_len (5 * PI) (5 * PI) = 0.
Proof.
  pose proof PI2_3_2 as P3. unfold arc_len.
  assert (G : forall x y, 0 <= y <= PI -> cos x = cos y -> acos (cos x) = y).
  { intros x y Hy ->. apply acos_cos. auto. }
  repeat split; apply G; try lra.
  - rewrite <- cos_neg. f_equal. lra.
  - f_equal. lra.
  - apply same_dir_cos. transitivity (5 * PI - PI / 2 - (5 * PI - PI / 2) + PI / 2 + 0) || idtac.
    replace (5 * PI - PI / 2) with (PI / 2 + 2 * PI * IZR 2) by (simpl; lra). exists 2%Z. simpl; lra.
  - apply same_dir_cos. exists (-3)%Z. simpl; lra.
  - rewrite <- cos_neg. apply same_dir_cos. exists 2%Z. simpl; lra.
  - f_equal. lra.
Qed.
Lemma deviation_median_turns : exists alpha m a b,
  circ_r alpha None < conc_limit /\
  circ_median alpha None (Some "deviation"%string) false "all"%string = Ok (MOne m) /\
  In a alpha /\ In b alpha /\ same_dir m a /\ mean_arc5 alpha b < mean_arc5 alpha a.
Proof.
  pose proof PI2_3_2 as P3.
  exists [0; PI / 2; 5 * PI], PI, (5 * PI), (PI / 2). destruct median_quarter_cands as [E S].
  split.
  { apply Rle_lt_trans with (1 / 2); [|unfold conc_limit; lra]. apply r_small; [discriminate|lra|].
    simpl. rewrite cos_0, sin_0, cos_PI2, sin_PI2, cos_3PI2', sin_5PI. lra. }
  split.
  { unfold circ_median. unfold circ_r in E. rewrite E, weights_none_ones. cbn [negb]. simpl String.eqb.
    cbv iota. rewrite deviation_median_eq by discriminate. cbn [bind]. rewrite S.
    unfold pick. cbn [length Nat.eqb med_mod]. do 2 f_equal. apply angmod0_unique; [lra|].
    exists (-2)%Z. simpl. lra. }
  split; [simpl; auto|]. split; [simpl; auto|]. split; [exists (-2)%Z; simpl; lra|].
  unfold mean_arc5. apply round5_lt. destruct arc_len_PI2 as (A & B & C & D & F & G).
  cbn [map length]. rewrite A, B, C, D, F, G. rewrite ?Rsum_cons, ?Rsum_nil. simpl INR. lra.
Qed.
Lemma ex19 : circ_r [0; PI / 2; PI] None < conc_limit /\ within_turn [0; PI / 2; PI] /\
  circ_median_default [0; PI / 2; PI] = Ok (MOne (PI / 2)).
Proof.
  pose proof PI2_3_2 as P3. split; [|split; [|apply median_quarter]].
  - apply Rle_lt_trans with (1 / 2); [|unfold conc_limit; lra]. apply r_small; [discriminate|lra|].
    simpl. rewrite cos_0, sin_0, cos_PI2, sin_PI2, cos_PI, sin_PI. lra.
  - intros a b Ha Hb. simpl in Ha, Hb.
    destruct Ha as [<-|[<-|[<-|[]]]], Hb as [<-|[<-|[<-|[]]]]; unfold Rabs; destruct Rcase_abs; lra.
Qed.
(** C20 *)
Lemma hdi_error samples ci : (samples = [] \/ ~ 0 < ci < 1) <-> compute_hdi samples ci = Err ValueError.
Proof.
  rewrite <- hdi_errors. split.
  - intros [e E]. rewrite E. now rewrite (hdi_error_kind _ _ _ E).
  - intros E. eauto.
Qed.
Lemma ex20 : [0; 1; 4; 6] <> [] /\ 0 < 1/2 < 1 /\ hdi_window (1/2) (length [0; 1; 4; 6]) = 2%nat.
Proof.
  split; [discriminate|]. split; [lra|]. unfold hdi_window. simpl length.
  rewrite (Rfloor_unique _ 2) by (simpl; lra). reflexivity.
Qed.
(** C21 *)
Lemma ex21 : circ_range [0; PI / 2] = Ok (PI / 2).
Proof.
  pose proof PI2_3_2 as P3. unfold circ_range.
  assert (M : map (fun a => pymod a (2 * PI)) [0; PI / 2] = [0; PI / 2]).
  { cbn [map]. rewrite <- !angmod0_eq, !angmod0_id by lra. reflexivity. }
  rewrite M. rewrite sort_id by (repeat constructor; lra).
  cbn [last diff]. unfold Rlmax. cbn [fold_left]. f_equal. unfold Rmax. repeat destruct Rle_dec; lra.
Qed.
(** C22 *)
Lemma ex22 : (exists p, ci_approximate 1 (1/2) 10 (384/100) = Ok (Some p)) /\
  (exists p, ci_dispersion [(0, 20); (PI / 2, 20)] (PI / 4) (196/100) = Ok (Some p)).
Proof.
  split.
  - apply ci_approximate_total; try lra.
    rewrite <- (sqrt_square (1/2)) by lra. apply sqrt_le_1_alt. lra.
  - set (s := [(0, 20); (PI / 2, 20)]).
    assert (W : wtotal s = 40) by (unfold wtotal; simpl; lra).
    assert (T : forall p : R, p * (0 - 0) = 0) by (intros; ring).
    assert (T1 : 1 * (PI / 2 - 0) = PI / 2) by field. assert (T2 : 2 * (PI / 2 - 0) = PI) by field.
    assert (C1 : compute_C s 1 0 = 1 / 2).
    { unfold compute_C. rewrite W. cbn [s map fst snd]. rewrite T, T1, cos_0, cos_PI2, ?Rsum_cons, Rsum_nil. field. }
    assert (S1 : compute_S s 1 0 = 1 / 2).
    { unfold compute_S. rewrite W. cbn [s map fst snd]. rewrite T, T1, sin_0, sin_PI2, ?Rsum_cons, Rsum_nil. field. }
    assert (C2 : compute_C s 2 0 = 0).
    { unfold compute_C. rewrite W. cbn [s map fst snd]. rewrite T, T2, cos_0, cos_PI, ?Rsum_cons, Rsum_nil. field. }
    assert (S2 : compute_S s 2 0 = 0).
    { unfold compute_S. rewrite W. cbn [s map fst snd]. rewrite T, T2, sin_0, sin_PI, ?Rsum_cons, Rsum_nil. field. }
    assert (D : circ_dispersion s = 1).
    { unfold circ_dispersion, circ_moment, hypot. cbn [fst snd]. rewrite C1, S1, C2, S2.
      replace (0 * 0 + 0 * 0) with 0 by ring. rewrite sqrt_0.
      assert (Q : sqrt (1 / 2 * (1 / 2) + 1 / 2 * (1 / 2)) ^ 2 = 1 / 2).
      { simpl. rewrite Rmult_1_r, sqrt_sqrt; lra. }
      rewrite Q. field. }
    assert (R0 : circ_r_s s <> 0).
    { unfold circ_r_s. rewrite C1, S1. intros Z. apply sqrt_eq_0 in Z; lra. }
    unfold ci_dispersion. rewrite W, D. destruct (Rltb_spec 40 25); [lra|].
    destruct (Reqb_spec (circ_r_s s) 0); [contradiction|]. cbv zeta.
    destruct (Rltb_spec (1 / 40) 0); [lra|].
    assert (B : 0 <= sqrt (1 / 40) < 1 / 2).
    { split; [apply sqrt_pos|]. rewrite <- (sqrt_square (1 / 2)) by lra. apply sqrt_lt_1; lra. }
    destruct (Rleb_spec 1 (sqrt (1 / 40) * (196 / 100))); [lra|].
    destruct (Rltb_spec (sqrt (1 / 40) * (196 / 100)) (-1)); [lra|].
    destruct (orient _ _ _) as [lb ub]. eexists; reflexivity.
Qed.
(** C23, C78 *)
Lemma median_ci_large_api alpha median z tie : (15 < length alpha)%nat ->
  0 <= z <= sqrt (INR (length alpha)) -> ties_median alpha median tie ->
  upper_index alpha median z tie <> Z.of_nat (length alpha) ->
  exists lo up, circ_median_ci alpha median z = Ok (Some (lo, up)) /\
    (exists a, In a alpha /\ same_dir lo a) /\ (exists b, In b alpha /\ same_dir up b) /\
    0 <= lo < 2 * PI /\ 0 <= up < 2 * PI /\
    (lo <> up -> on_ccw_arc median lo up).
Proof.
  intros Hn Hz T U. rewrite INR_IZR_INZ in Hz.
  destruct (proj2 (median_ci_large alpha median z tie Hn Hz T) U) as (lo & up & E & (a & Ha & Ea) & (b & Hb & Eb) & H).
  exists lo, up. split; [exact E|]. rewrite Ea, Eb.
  split; [exists a; split; auto; apply angmod0_same_dir|].
  split; [exists b; split; auto; apply angmod0_same_dir|].
  split; [apply angmod0_range|]. split; [apply angmod0_range|]. rewrite <- Ea, <- Eb. exact H.
Qed.
Lemma median_ci_large_error alpha median z tie : (15 < length alpha)%nat ->
  0 <= z <= sqrt (INR (length alpha)) -> ties_median alpha median tie ->
  upper_index alpha median z tie = Z.of_nat (length alpha) ->
  circ_median_ci alpha median z = Err IndexError.
Proof.
  intros Hn Hz T U. rewrite INR_IZR_INZ in Hz. apply (median_ci_large alpha median z tie Hn Hz T), U.
Qed.
Lemma median_ci_small alpha median z : (length alpha <= 15)%nat ->
  ((length alpha < 3)%nat -> circ_median_ci alpha median z = Ok None) /\
  ((3 <= length alpha)%nat -> exists lo up, circ_median_ci alpha median z = Ok (Some (lo, up)) /\
    (exists a, In a alpha /\ same_dir lo a) /\ (exists b, In b alpha /\ same_dir up b)).
Proof.
  intros Hn. unfold circ_median_ci. destruct (Nat.ltb_spec 15 (length alpha)); [lia|].
  assert (G : forall k, (k < length alpha)%nat -> exists x, nth_err (nsort alpha) k = Ok x /\ In x alpha).
  { intros k Hk. unfold nth_err. destruct (nth_error (nsort alpha) k) as [x|] eqn:E.
    - exists x. split; auto. apply nth_error_In in E. now rewrite sort_in in E.
    - apply nth_error_None in E. rewrite sort_length in E. lia. }
  split.
  - intros H3. destruct (length alpha) as [|[|[|n]]]; try lia; reflexivity.
  - intros H3.
    assert (T : exists i j, median_ci_table (length alpha) = Some (i, j) /\ (i < length alpha)%nat /\ (j < length alpha)%nat).
    { revert Hn H3. generalize (length alpha). intros n H1 H3.
      do 16 (destruct n as [|n]; [first [exfalso; lia | cbn; do 2 eexists; split; [reflexivity|lia]]|]). exfalso; lia. }
    destruct T as (i & j & -> & Hi & Hj).
    destruct (G i Hi) as (x & -> & Ix). destruct (G j Hj) as (y & -> & Iy). cbn [bind].
    exists (angmod0 x), (angmod0 y). split; [reflexivity|].
    split; [exists x|exists y]; split; auto; apply angmod0_same_dir.
Qed.
Lemma median_ci_raises : exists alpha m, (15 < length alpha)%nat /\
  circ_median_default alpha = Ok (MOne m) /\
  forall z, 1.95 <= z <= 1.97 -> circ_median_ci alpha m z = Err IndexError.
Proof.
  exists ci_witness, (5 * PI / 3). split; [unfold ci_witness; simpl; lia|].
  split; [apply ci_witness_median|apply ci_witness_error].
Qed.
(** Seventeen observations whose interval is found. *)
Definition ci_good : list R := repeat 1 5 ++ repeat 2 7 ++ repeat 3 5.
Lemma ex23 : (15 < length ci_good)%nat /\ ties_median ci_good 2 true /\
  0 <= 196/100 <= sqrt (INR (length ci_good)) /\
  upper_index ci_good 2 (196/100) true = 10%Z.
Proof.
  assert (Q1 : 4.12 < sqrt 17) by (rewrite <- (sqrt_square 4.12) by lra; apply sqrt_lt_1; lra).
  assert (Q2 : sqrt 17 < 4.13) by (rewrite <- (sqrt_square 4.13) by lra; apply sqrt_lt_1; lra).
  split; [unfold ci_good; simpl; lia|]. split.
  { split; [intros _|reflexivity]. exists 2. split; [|reflexivity]. unfold ci_good. simpl. tauto. }
  split.
  { replace (INR (length ci_good)) with 17 by (unfold ci_good; simpl; lra). lra. }
  unfold upper_index. change (IZR (Z.of_nat (length ci_good))) with 17.
  rewrite (Rfloor_unique _ 4) by (simpl; nra).
  assert (B : below 2 ci_good = 5%nat).
  { assert (LT1 : round5 1 < round5 2) by (apply round5_lt; lra).
    assert (LT2 : round5 2 < round5 3) by (apply round5_lt; lra).
    unfold ci_good. cbn [repeat app below].
    destruct (Rltb_spec (round5 1) (round5 2)); [|lra].
    destruct (Rltb_spec (round5 2) (round5 2)); [lra|].
    destruct (Rltb_spec (round5 3) (round5 2)); [lra|]. reflexivity. }
  rewrite B. reflexivity.
Qed.
(** C75, C76 *)
Lemma median_reordered_api alpha alpha' meth avg : alpha <> [] -> Permutation alpha alpha' ->
  circ_r alpha None < conc_limit ->
  In meth ["deviation"; "count"]%string -> In avg ["all"; "unique"]%string ->
  circ_median alpha None (Some meth) true avg = circ_median alpha' None (Some meth) true avg /\
  exists m m', circ_median alpha None (Some meth) false avg = Ok m /\
    circ_median alpha' None (Some meth) false avg = Ok m' /\
    Permutation (med_list m) (med_list m') /\ (m = MNaN <-> m' = MNaN).
Proof. intros. apply median_reordered; auto. now apply not_concentrated. Qed.
Lemma median_turned_api alpha alpha' meth b : alpha <> [] -> turned alpha alpha' ->
  circ_r alpha None < conc_limit ->
  (meth = "count"%string \/ meth = "deviation"%string /\ within_turn alpha /\ within_turn alpha') ->
  circ_median alpha None (Some meth) b "all"%string = circ_median alpha' None (Some meth) b "all"%string.
Proof. intros. apply median_turned; auto. now apply not_concentrated. Qed.
Lemma ex76 : turned [0; PI / 2; PI] [2 * PI; PI / 2; PI] /\ within_turn [2 * PI; PI / 2; PI].
Proof.
  pose proof PI2_3_2 as P3. split.
  - repeat constructor; try apply same_dir_refl. exists (-1)%Z. simpl. lra.
  - intros a b Ha Hb. simpl in Ha, Hb.
    destruct Ha as [<-|[<-|[<-|[]]]], Hb as [<-|[<-|[<-|[]]]]; unfold Rabs; destruct Rcase_abs; lra.
Qed.
