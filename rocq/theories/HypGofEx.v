(** Concrete examples for the goodness-of-fit properties. *)
From Verif Require Import Prelude NpModel NpProofs CircleSpec UtilsModel UtilsProofs
  DescModel DescProofs DescSpec DescApi DescApi2 Desc2Model Desc2Proofs Desc2Spec ArcProofs Desc3Proofs Desc6Proofs
  HypModel HypSpec HypProofs Hyp2Proofs HypGofModel HypGofSpec HypGofProofs HypGof2Proofs HypGof3Proofs HypGof4Proofs.
From Coq Require Import Sorted.

Ltac two := let x := fresh in let y := fresh in
  intros x y [<-|[<-|[]]] [<-|[<-|[]]]; pose proof PI_pos; lra.
Ltac three := let x := fresh in let y := fresh in
  intros x y [<-|[<-|[<-|[]]]] [<-|[<-|[<-|[]]]]; pose proof PI_pos; lra.
Lemma ex_turn : within_turn [0; PI / 2; 7 * PI / 4] /\ within_turn [PI / 2; PI; PI / 4] /\
  turned_by (PI / 2) [0; PI / 2; 7 * PI / 4] [PI / 2; PI; PI / 4].
Proof.
  split; [three|]. split; [three|]. repeat constructor; [exists 0%Z|exists 0%Z|exists (-1)%Z]; lra.
Qed.
Lemma ex_mirror : within_turn [0; PI / 2; 7 * PI / 4] /\ within_turn [0; 3 * PI / 2; PI / 4] /\
  mirrored 0 [0; PI / 2; 7 * PI / 4] [0; 3 * PI / 2; PI / 4].
Proof.
  split; [three|]. split; [three|]. repeat constructor; [exists 0%Z|exists 1%Z|exists 1%Z]; lra.
Qed.
Lemma sort_0h : nsort [0; PI / 2] = [0; PI / 2].
Proof. apply sort_id. pose proof PI_pos. repeat (constructor; try lra). Qed.
Lemma kuiper_0h : kuiper_V [0; PI / 2] = 3 / 4 * kuiper_f 2.
Proof.
  unfold kuiper_V. rewrite sort_0h. unfold indexed. cbn [length seq map combine fst snd]. simpl INR.
  replace (1 + 1) with 2 by ring. pose proof PI_pos.
  replace (PI / 2 / (2 * PI)) with (1 / 4) by (field; lra). replace (0 / (2 * PI)) with 0 by (field; lra).
  unfold np_max, Rlmax. cbn [fold_left]. unfold Rmax. repeat destruct Rle_dec; lra.
Qed.
Lemma watson_0h : watson_U2 [0; PI / 2] = 7 / 96.
Proof.
  unfold watson_U2. rewrite sort_0h. unfold indexed. cbn [length seq map combine fst snd]. rewrite ?Rsum_cons, ?Rsum_nil.
  pose proof PI_pos. simpl INR. field. lra.
Qed.
Lemma rao_0h : rao_U [0; PI / 2] = PI / 2.
Proof.
  unfold rao_U. rewrite sort_0h. cbn [length diff last hd app map]. rewrite ?Rsum_cons, ?Rsum_nil.
  pose proof PI_pos. simpl INR. replace (1 + 1) with 2 by ring. unfold Rabs. repeat destruct Rcase_abs; lra.
Qed.
Lemma ex_values : within_turn [0; PI / 2] /\
  (exists t, kuiper_test [0; PI / 2] 1 [] = Ok t /\ gof_stat t = 3 / 4 * (sqrt 2 + 155/1000 + (24/100) / sqrt 2)) /\
  (exists t, watson_test [0; PI / 2] 1 [] = Ok t /\ gof_stat t = 7 / 96) /\
  (exists t, rao_spacing_test [0; PI / 2] None 1 [] = Ok t /\ gof_stat t = 90).
Proof.
  split; [two|]. split; [|split].
  - destruct (kuiper_ok [0; PI / 2] 1 []) as (t & E & S); [discriminate|lia|]. exists t. split; [exact E|]. rewrite S. exact kuiper_0h.
  - destruct (watson_ok [0; PI / 2] 1 []) as (t & E & S); [discriminate|lia|]. exists t. split; [exact E|]. rewrite S. exact watson_0h.
  - destruct (rao_ok [0; PI / 2] 1 []) as (t & E & S); [discriminate|lia|]. exists t. split; [exact E|]. rewrite S, rao_0h.
    pose proof PI_pos. field. lra.
Qed.
Lemma ex_spaced : equally_spaced [PI + 1; 1] /\ within_turn [PI + 1; 1] /\ coincident [1; 1] /\ ~ coincident [0; 1].
Proof.
  split; [|split; [two|split]].
  - exists 1, [1; PI + 1]. split; [apply perm_swap|]. cbn [length seq map]. simpl INR. repeat constructor; exists 0%Z; field.
  - intros x y [<-|[<-|[]]] [<-|[<-|[]]]; reflexivity.
  - intros K. pose proof (K 0 1 (or_introl eq_refl) (or_intror (or_introl eq_refl))). lra.
Qed.
(** One of the two draws is at least as extreme: p = 2/3. *)
Lemma ex27 : exists t, kuiper_test [0; PI / 2] 2 [[0; 0]; [1; PI + 1]] = Ok t /\ gof_pval t = 2 / 3.
Proof.
  unfold kuiper_test. cbn [Z.leb Z.compare Pos.compare Pos.compare_cont Z.eqb Pos.eqb length Nat.eqb].
  eexists. split; [reflexivity|]. cbn [gof_pval map]. rewrite kuiper_0h, kuiper_00.
  destruct (kuiper_bounds [1; PI + 1]) as (_ & B & _); [discriminate|two|]. cbn [length] in B.
  replace (INR 2) with 2 in B by reflexivity.
  assert (P : 0 < kuiper_f 2) by (apply kuiper_f_pos; lra).
  rewrite (proj2 B).
  - unfold mc_pval, count_if. cbn [filter].
    destruct (Rleb_spec (3 / 4 * kuiper_f 2) (kuiper_f 2)) as [H|H]; [|lra].
    destruct (Rleb_spec (3 / 4 * kuiper_f 2) (kuiper_f 2 / 2)) as [H'|H']; [lra|].
    cbn [length]. simpl INR. lra.
  - exists 1, [1; PI + 1]. split; [apply Permutation_refl|]. cbn [length seq map]. simpl INR. repeat constructor; exists 0%Z; field.
Qed.
Lemma ex37 : Forall in_two_turns [0; PI / 2] /\ circ_range_test [0; PI / 2] = Ok (PI / 2, 1 / 2).
Proof.
  pose proof PI_pos as Hp.
  assert (F : Forall in_two_turns [0; PI / 2]).
  { repeat constructor; unfold in_two_turns, Rabs; destruct Rcase_abs; lra. }
  split; [exact F|]. destruct (range_test_eval [0; PI / 2]) as (r & Er & Br & ->); [discriminate|exact F|].
  assert (R0 : r = PI / 2).
  { unfold circ_range in Er. cbn [map] in Er.
    rewrite (pymod_unique 0 (2 * PI) 0) in Er; [|lra|exists 0%Z; ring].
    rewrite (pymod_unique (PI / 2) (2 * PI) (PI / 2)) in Er; [|lra|exists 0%Z; ring].
    rewrite sort_0h in Er. cbn [diff last] in Er. unfold Rlmax in Er. cbn [fold_left] in Er. injection Er as <-.
    unfold Rmax. destruct Rle_dec; lra. }
  subst r. f_equal. f_equal. cbn [length] in *. rewrite range_p_Sf by (lia || lra).
  replace (1 - PI / 2 / (2 * PI)) with (3 / 4) by (field; lra). cbn [Nat.sub]. unfold Sf. cbn [seq map]. rewrite ?Rsum_cons, ?Rsum_nil.
  rewrite comb_0, comb_nn. replace (comb 2 1) with 2 by (rewrite comb_pascal, comb_0, comb_nn; ring).
  simpl INR. rewrite (tp_pos (1 - 0 * _)), (tp_pos (1 - 1 * _)) by lra. rewrite tp_neg by lra. simpl. lra.
Qed.
Lemma ex85 : within_turn ([0] ++ [PI / 2; PI]) /\
  exists t, angular_randomisation_test [[0]; [PI / 2; PI]] 1 [] = Ok t /\ gof_stat t = sqrt (2 / 3) * (3 * PI / 2).
Proof.
  pose proof PI_pos as Hp. split; [three|]. destruct (art_ok [0] [PI / 2; PI] 1 []) as (t & E & S); [discriminate|discriminate|lia|].
  exists t. split; [exact E|]. rewrite S. unfold art_statistic. rewrite pairdist_sum. cbn [map length]. rewrite ?Rsum_cons, ?Rsum_nil.
  simpl INR. f_equal; [f_equal; field|]. cbn [circ_dist]. unfold circ_dist_geodesic.
  rewrite !(Rabs_left1 (0 - _)) by lra. rewrite !Rabs_pos_eq by lra. lra.
Qed.
