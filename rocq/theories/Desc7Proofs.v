(** Concrete medians: witnesses for C23, C76 and C78. *)
From Coq Require Import Sorting.Sorted.
From Verif Require Import Prelude NpModel NpProofs CircleSpec Desc2Spec UtilsModel UtilsProofs
  DescModel DescProofs DescSpec DescApi DescApi2 DescEx Desc2Model Desc2Proofs ArcProofs Desc4Proofs Desc5Proofs Desc6Proofs.

Ltac adist := pose proof PI_RGT_0; unfold Rabs; repeat destruct Rcase_abs; lra.
Lemma r_small alpha c : alpha <> [] -> 0 <= c ->
  Rsum (map cos alpha) * Rsum (map cos alpha) + Rsum (map sin alpha) * Rsum (map sin alpha)
    <= (c * INR (length alpha)) * (c * INR (length alpha)) ->
  circ_r alpha None <= c.
Proof.
  intros Hn Hc H. unfold circ_r, circ_r_s. fold (smp alpha None).
  rewrite compute_C_eq, compute_S_eq, Csum_none, Ssum_none, wtotal_none.
  assert (0 < INR (length alpha)).
  { apply lt_0_INR. destruct alpha; [congruence|simpl; lia]. }
  set (n := INR (length alpha)) in *. rewrite <- (sqrt_square c Hc).
  apply sqrt_le_1_alt.
  match goal with |- ?l <= _ => replace l with
    ((Rsum (map cos alpha) * Rsum (map cos alpha) + Rsum (map sin alpha) * Rsum (map sin alpha)) / (n * n))
    by (field; lra) end.
  apply Rmult_le_reg_r with (n * n); [nra|]. unfold Rdiv. rewrite Rmult_assoc, Rinv_l, Rmult_1_r by nra. nra.
Qed.

Lemma angmod0_id x : 0 <= x < 2 * PI -> angmod0 x = x.
Proof. intros H. apply angmod0_unique; auto. apply same_dir_refl. Qed.
Lemma select_min_eval f l m : (exists a, In a l /\ f a = m) -> (forall b, In b l -> m <= f b) ->
  select_min (map f l) l = filter (fun b => Reqb (f b) m) l.
Proof.
  intros (a & Ha & E) H. destruct (select_min_filter f l) as [m' E'].
  assert (I : In a (select_min (map f l) l)).
  { apply select_min_map. split; auto. intros b Hb. rewrite E. auto. }
  rewrite E' in *. apply filter_In in I. destruct I as [_ I]. apply Reqb_true in I. subst; reflexivity.
Qed.

(** * C76: adding whole turns moves the deviation median *)
Lemma cos_3PI2' : cos (5 * PI) = -1.
Proof. replace (5 * PI) with (PI + 2 * INR 2 * PI) by (simpl; ring). rewrite cos_period. apply cos_PI. Qed.
Lemma sin_5PI : sin (5 * PI) = 0.
Proof. replace (5 * PI) with (PI + 2 * INR 2 * PI) by (simpl; ring). rewrite sin_period. apply sin_PI. Qed.
Lemma median_quarter : circ_median_default [0; PI / 2; PI] = Ok (MOne (PI / 2)).
Proof.
  pose proof PI2_3_2 as P3.
  rewrite (median_default_eval _ [PI / 2]); [| | | |]; try discriminate.
  - rewrite circ_mean_single. simpl. rewrite !angmod0_id; [reflexivity| |]; try lra.
    rewrite angmod0_id; lra.
  - apply isclose12_1_false. apply Rle_lt_trans with (1 / 2); [|lra]. apply r_small; [discriminate|lra|].
    simpl. rewrite cos_0, sin_0, cos_PI2, sin_PI2, cos_PI, sin_PI. lra.
  - apply (select_min_one _ [0] (PI / 2) [PI]).
    intros b [<-|[<-|[]]]; apply round5_lt; unfold mean; cbn [map length Rsum fold_right];
    repeat match goal with |- context [Rabs (PI - Rabs (?x - ?y))] =>
      first [ replace (Rabs (PI - Rabs (x - y))) with (PI / 2) by adist
            | replace (Rabs (PI - Rabs (x - y))) with PI by adist
            | replace (Rabs (PI - Rabs (x - y))) with 0 by adist ] end; simpl; lra.
Qed.
Lemma median_quarter_cands : isclose12 (circ_r [0; PI / 2; 5 * PI] None) 1 = false /\
  select_min (map (dev5 [0; PI / 2; 5 * PI]) [0; PI / 2; 5 * PI]) [0; PI / 2; 5 * PI] = [5 * PI].
Proof.
  pose proof PI2_3_2 as P3. split.
  - apply isclose12_1_false. apply Rle_lt_trans with (1 / 2); [|lra]. apply r_small; [discriminate|lra|].
    simpl. rewrite cos_0, sin_0, cos_PI2, sin_PI2, cos_3PI2', sin_5PI. lra.
  - apply (select_min_one _ [0; PI / 2] (5 * PI) []).
    intros b [<-|[<-|[]]]; apply round5_lt; unfold mean; cbn [map length Rsum fold_right];
    repeat match goal with |- context [Rabs (PI - Rabs (?x - ?y))] =>
      first [ replace (Rabs (PI - Rabs (x - y))) with (PI / 2) by adist
            | replace (Rabs (PI - Rabs (x - y))) with PI by adist
            | replace (Rabs (PI - Rabs (x - y))) with (4 * PI) by adist
            | replace (Rabs (PI - Rabs (x - y))) with (7 / 2 * PI) by adist ] end; simpl; lra.
Qed.
Lemma median_turned_quarter : circ_median_default [0; PI / 2; 5 * PI] = Ok (MOne PI).
Proof.
  pose proof PI2_3_2 as P3. destruct median_quarter_cands as [E S].
  rewrite (median_default_eval _ [5 * PI]); try discriminate; auto.
  rewrite circ_mean_single. simpl. rewrite (proj2 (angmod0_eq_iff (5 * PI) PI)).
  2:{ exists 2%Z. simpl. lra. } rewrite !angmod0_id; [reflexivity| |]; try lra.
  rewrite angmod0_id; lra.
Qed.
Lemma turned_quarter : turned [0; PI / 2; PI] [0; PI / 2; 5 * PI].
Proof. repeat constructor; try apply same_dir_refl. exists (-2)%Z. simpl. lra. Qed.
Lemma median_turn_wrong : exists alpha alpha' m m', turned alpha alpha' /\
  circ_median_default alpha = Ok (MOne m) /\ circ_median_default alpha' = Ok (MOne m') /\ ~ same_dir m m'.
Proof.
  exists [0; PI / 2; PI], [0; PI / 2; 5 * PI], (PI / 2), PI.
  split; [apply turned_quarter|]. split; [apply median_quarter|]. split; [apply median_turned_quarter|].
  intros D. apply same_dir_sin in D. rewrite sin_PI2, sin_PI in D. lra.
Qed.

(** * C78: the small-sample interval misses the median *)
Lemma median_ci_small_wrong : exists alpha m lo up,
  length alpha = 4%nat /\ circ_median_default alpha = Ok (MOne m) /\
  (forall z, circ_median_ci alpha m z = Ok (Some (lo, up))) /\ ~ on_ccw_arc m lo up.
Proof.
  pose proof PI2_3_2 as P3. pose (a := PI / 6).
  exists [11 * a; a; 10 * a; 2 * a], 0, a, (11 * a).
  split; [reflexivity|].
  assert (CA : cos (11 * a) = cos a /\ sin (11 * a) = - sin a).
  { replace (11 * a) with (- a + 2 * INR 1 * PI) by (unfold a; simpl; lra).
    rewrite cos_period, sin_period, cos_neg, sin_neg. auto. }
  assert (CB : cos (10 * a) = cos (2 * a) /\ sin (10 * a) = - sin (2 * a)).
  { replace (10 * a) with (- (2 * a) + 2 * INR 1 * PI) by (unfold a; simpl; lra).
    rewrite cos_period, sin_period, cos_neg, sin_neg. auto. }
  assert (C1 : cos a * cos a = 3 / 4).
  { unfold a. rewrite cos_PI6. pose proof (sqrt_sqrt 3 ltac:(lra)). nra. }
  assert (C2 : cos (2 * a) = 1 / 2).
  { unfold a. replace (2 * (PI / 6)) with (PI / 3) by lra. apply cos_PI3. }
  assert (C3 : 0 < cos a) by (unfold a; apply cos_gt_0; lra).
  split.
  - rewrite (median_default_eval _ [11 * a; a]); try discriminate.
    + assert (M : circ_mean [11 * a; a] None = Fin 0).
      { destruct (circ_mean_cases [11 * a; a] None) as [[H _]|[_ H]].
        - exfalso. apply (Rlt_irrefl (/ 100000000)). eapply Rlt_le_trans; [|exact H].
          unfold circ_r, circ_r_s. fold (smp [11 * a; a] None).
          rewrite compute_C_eq, compute_S_eq, Csum_none, Ssum_none, wtotal_none.
          simpl. rewrite (proj1 CA), (proj2 CA).
          apply Rlt_le_trans with (1 / 2); [lra|].
          rewrite <- (sqrt_square (1 / 2)) by lra. apply sqrt_le_1_alt. nra.
        - rewrite H. f_equal. unfold mean_dir. transitivity (angmod0 0); [|apply angmod0_id; lra].
          apply angmod0_eq_iff. apply arctan2_unique with (cos a); auto.
          + rewrite compute_C_eq, Csum_none, wtotal_none. simpl. rewrite (proj1 CA), cos_0. lra.
          + rewrite compute_S_eq, Ssum_none, wtotal_none. simpl. rewrite (proj2 CA), sin_0. lra. }
      rewrite M. simpl. rewrite angmod0_id; [reflexivity|lra].
    + apply isclose12_1_false. apply Rle_lt_trans with (9 / 10); [|lra]. apply r_small; [discriminate|lra|].
      simpl. rewrite (proj1 CA), (proj2 CA), (proj1 CB), (proj2 CB), C2.
      assert (cos a < 9 / 10) by nra. nra.
    + assert (V : forall b, In b [11 * a; a; 10 * a; 2 * a] ->
        PI - mean (map (fun x => Rabs (PI - Rabs (x - b))) [11 * a; a; 10 * a; 2 * a]) =
        if Reqb b (11 * a) then 3 / 2 * a else if Reqb b a then 3 / 2 * a else 2 * a).
      { assert (A0 : 0 < a) by (unfold a; lra). assert (PA : PI = 6 * a) by (unfold a; lra).
        intros b [<-|[<-|[<-|[<-|[]]]]];
        repeat match goal with |- context [Reqb ?x ?y] => destruct (Reqb_spec x y); try lra end;
        unfold mean; cbn [map length]; rewrite PA, ?Rsum_cons, ?Rsum_nil;
        repeat match goal with |- context [Rabs (6 * a - Rabs (?x - ?y))] =>
        first [ replace (Rabs (6 * a - Rabs (x - y))) with (6 * a) by adist
              | replace (Rabs (6 * a - Rabs (x - y))) with (5 * a) by adist
              | replace (Rabs (6 * a - Rabs (x - y))) with (4 * a) by adist
              | replace (Rabs (6 * a - Rabs (x - y))) with (3 * a) by adist
              | replace (Rabs (6 * a - Rabs (x - y))) with (2 * a) by adist ] end; simpl; lra. }
      assert (A0 : 0 < a) by (unfold a; lra).
      assert (LT : round5 (3 / 2 * a) < round5 (2 * a)) by (apply round5_lt; unfold a; lra).
      pose (l := [11 * a; a; 10 * a; 2 * a]).
      assert (W1 : dev5 l (11 * a) = round5 (3 / 2 * a)).
      { unfold dev5, l. rewrite V by (simpl; auto). f_equal. destruct (Reqb_spec (11 * a) (11 * a)); lra. }
      assert (W2 : dev5 l a = round5 (3 / 2 * a)).
      { unfold dev5, l. rewrite V by (simpl; auto). f_equal.
        destruct (Reqb_spec a (11 * a)); [lra|]. destruct (Reqb_spec a a); lra. }
      assert (W3 : dev5 l (10 * a) = round5 (2 * a)).
      { unfold dev5, l. rewrite V by (simpl; auto). f_equal.
        destruct (Reqb_spec (10 * a) (11 * a)); [lra|]. destruct (Reqb_spec (10 * a) a); lra. }
      assert (W4 : dev5 l (2 * a) = round5 (2 * a)).
      { unfold dev5, l. rewrite V by (simpl; auto). f_equal.
        destruct (Reqb_spec (2 * a) (11 * a)); [lra|]. destruct (Reqb_spec (2 * a) a); lra. }
      fold l. rewrite (select_min_eval _ _ (round5 (3 / 2 * a))).
      * unfold l at 2. cbn [filter]. rewrite W1, W2, W3, W4.
        destruct (Reqb_spec (round5 (3 / 2 * a)) (round5 (3 / 2 * a))); [|congruence].
        destruct (Reqb_spec (round5 (2 * a)) (round5 (3 / 2 * a))); [lra|]. reflexivity.
      * exists a. split; [simpl; auto|exact W2].
      * intros b [<-|[<-|[<-|[<-|[]]]]]; rewrite ?W1, ?W2, ?W3, ?W4; lra.
  - assert (A0 : 0 < a) by (unfold a; lra). assert (PA : PI = 6 * a) by (unfold a; lra).
    assert (S : nsort [11 * a; a; 10 * a; 2 * a] = [a; 2 * a; 10 * a; 11 * a]).
    { cbn [nsort insert]. repeat match goal with |- context [Rleb ?x ?y] =>
        destruct (Rleb_spec x y); try lra; cbn [insert] end. reflexivity. }
    split.
    + intros z. unfold circ_median_ci. cbn [length Nat.ltb Nat.leb median_ci_table]. rewrite S.
      cbn [nth_err bind]. cbn; rewrite !angmod0_id by lra. reflexivity.
    + intros (t & u & Ht & Hu & D1 & D2).
      assert (U : u = 10 * a).
      { apply (same_dir_unique 0); [lra|lra|]. apply same_dir_sym.
        replace (10 * a) with (11 * a - a) by lra. replace u with (a + u - a) by lra.
        apply same_dir_sub; [exact D2|apply same_dir_refl]. }
      destruct D1 as [k Hk].
      assert (K1 : (k < 0)%Z) by (apply lt_IZR; simpl; nra).
      assert (K2 : (-1 < k)%Z) by (apply lt_IZR; simpl; nra). lia.
Qed.

(** * C23: a sample of 17 whose median interval raises IndexError *)
Definition ci_witness : list R :=
  repeat (3 * PI / 2) 8 ++ [5 * PI / 3] ++ repeat (11 * PI / 6) 4 ++ repeat (PI / 6) 4.
Lemma ci_witness_median : circ_median_default ci_witness = Ok (MOne (5 * PI / 3)).
Proof.
  pose proof PI2_3_2 as P3. pose (a := PI / 6).
  assert (A0 : 0 < a) by (unfold a; lra). assert (PA : PI = 6 * a) by (unfold a; lra).
  assert (EQ : ci_witness = repeat (9 * a) 8 ++ 10 * a :: (repeat (11 * a) 4 ++ repeat a 4)).
  { unfold ci_witness. replace (9 * a) with (3 * PI / 2) by lra. replace (10 * a) with (5 * PI / 3) by lra.
    replace (11 * a) with (11 * PI / 6) by lra. reflexivity. }
  replace (5 * PI / 3) with (10 * a) by lra. rewrite EQ.
  rewrite (median_default_eval _ [10 * a]); try discriminate.
  - rewrite circ_mean_single. simpl. rewrite !angmod0_id; [reflexivity| |]; try lra. rewrite angmod0_id; lra.
  - apply isclose12_1_false. apply Rle_lt_trans with (9 / 10); [|lra].
    apply r_small; [discriminate|lra|].
    assert (S9 : sin (9 * a) = -1 /\ cos (9 * a) = 0).
    { replace (9 * a) with (3 * (PI / 2)) by lra. split; [apply sin_3PI2|apply cos_3PI2]. }
    assert (S10 : cos (10 * a) = 1 / 2 /\ sin (10 * a) = - (sqrt 3 / 2)).
    { replace (10 * a) with (- (PI / 3) + 2 * INR 1 * PI) by (simpl; lra).
      rewrite cos_period, sin_period, cos_neg, sin_neg, cos_PI3, sin_PI3. split; lra. }
    assert (S11 : cos (11 * a) = sqrt 3 / 2 /\ sin (11 * a) = - (1 / 2)).
    { replace (11 * a) with (- (PI / 6) + 2 * INR 1 * PI) by (simpl; lra).
      rewrite cos_period, sin_period, cos_neg, sin_neg, cos_PI6, sin_PI6. split; lra. }
    assert (S1 : cos a = sqrt 3 / 2 /\ sin a = 1 / 2).
    { unfold a. rewrite cos_PI6, sin_PI6. auto. }
    destruct S9 as [s9 c9], S10 as [c10 s10], S11 as [c11 s11], S1 as [c1 s1].
    cbn [repeat app map length]. rewrite s9, c9, c10, s10, c11, s11, c1, s1. rewrite ?Rsum_cons, ?Rsum_nil.
    assert (Q : sqrt 3 < 1733 / 1000).
    { rewrite <- (sqrt_square (1733 / 1000)) by lra. apply sqrt_lt_1; lra. }
    assert (Q0 : 0 <= sqrt 3) by apply sqrt_pos.
    simpl INR. pose proof (sqrt_sqrt 3 ltac:(lra)). nra.
  - apply select_min_one. intros b Hb.
    assert (B : b = 9 * a \/ b = 11 * a \/ b = a).
    { simpl in Hb. intuition. }
    apply round5_lt. unfold mean. cbn [repeat app map length].
    destruct B as [->|[->| ->]];
    repeat match goal with |- context [Rabs (PI - Rabs (?x - ?y))] =>
        first [ replace (Rabs (PI - Rabs (x - y))) with (6 * a) by adist
              | replace (Rabs (PI - Rabs (x - y))) with (5 * a) by adist
              | replace (Rabs (PI - Rabs (x - y))) with (4 * a) by adist
              | replace (Rabs (PI - Rabs (x - y))) with (3 * a) by adist
              | replace (Rabs (PI - Rabs (x - y))) with (2 * a) by adist ] end;
    rewrite ?Rsum_cons, ?Rsum_nil; simpl INR; lra.
Qed.
Lemma ci_witness_error z : 1.95 <= z <= 1.97 ->
  circ_median_ci ci_witness (5 * PI / 3) z = Err IndexError.
Proof.
  intros Hz. pose proof PI2_3_2 as P3.
  assert (T : ties_median ci_witness (5 * PI / 3) true).
  { split; [intros _|reflexivity]. exists (5 * PI / 3). split; [|reflexivity]. unfold ci_witness. simpl. tauto. }
  assert (Q1 : 4.12 < sqrt 17) by (rewrite <- (sqrt_square 4.12) by lra; apply sqrt_lt_1; lra).
  assert (Q2 : sqrt 17 < 4.13) by (rewrite <- (sqrt_square 4.13) by lra; apply sqrt_lt_1; lra).
  assert (L : length ci_witness = 17%nat) by reflexivity.
  apply (median_ci_large ci_witness (5 * PI / 3) z true).
  - rewrite L. lia.
  - rewrite L. simpl. lra.
  - exact T.
  - unfold upper_index. rewrite L. change (IZR (Z.of_nat 17)) with 17.
    rewrite (Rfloor_unique _ 4) by (simpl; nra).
    assert (B : below (5 * PI / 3) ci_witness = 12%nat).
    { assert (LT1 : round5 (3 * PI / 2) < round5 (5 * PI / 3)) by (apply round5_lt; lra).
      assert (LT2 : round5 (5 * PI / 3) < round5 (11 * PI / 6)) by (apply round5_lt; lra).
      assert (LT3 : round5 (PI / 6) < round5 (5 * PI / 3)) by (apply round5_lt; lra).
      unfold ci_witness. cbn [repeat app below].
      destruct (Rltb_spec (round5 (3 * PI / 2)) (round5 (5 * PI / 3))); [|lra].
      destruct (Rltb_spec (round5 (5 * PI / 3)) (round5 (5 * PI / 3))); [lra|].
      destruct (Rltb_spec (round5 (11 * PI / 6)) (round5 (5 * PI / 3))); [lra|].
      destruct (Rltb_spec (round5 (PI / 6)) (round5 (5 * PI / 3))); [|lra].
      reflexivity. }
    rewrite B. reflexivity.
Qed.
