(** Concrete data for circular-circular regression. *)
From Verif Require Import Prelude NpModel UtilsModel NpProofs RegModel CircleSpec RegSpec RegProofs Reg2Proofs Reg3Proofs Reg4Proofs Reg5Proofs Reg6Proofs Reg7Proofs Reg8Proofs.

(** Six equally spaced predictors. *)
Definition s3 : R := sqrt 3 / 2.
Lemma s3_sq : s3 * s3 = 3 / 4.
Proof. unfold s3. pose proof (sqrt_sqrt 3 ltac:(lra)). nra. Qed.
Lemma third k : cos (INR k * (PI / 3)) = nth (k mod 6) [1; 1/2; -1/2; -1; -1/2; 1/2] 0 /\ sin (INR k * (PI / 3)) = nth (k mod 6) [0; s3; s3; 0; -s3; -s3] 0.
Proof.
  assert (B : forall j, (j < 6)%nat -> cos (INR j * (PI / 3)) = nth j [1; 1/2; -1/2; -1; -1/2; 1/2] 0 /\ sin (INR j * (PI / 3)) = nth j [0; s3; s3; 0; -s3; -s3] 0).
  { intros j Hj. pose proof cos_PI3 as C. pose proof sin_PI3 as S. fold s3 in S.
    destruct j as [|[|[|[|[|[|j]]]]]]; [| | | | | |lia]; cbn [nth].
    - cbn [INR]. rewrite Rmult_0_l. split; [apply cos_0|apply sin_0].
    - cbn [INR]. rewrite Rmult_1_l. split; [exact C|exact S].
    - replace (INR 2 * (PI / 3)) with (PI - PI / 3) by (cbn [INR]; field). rewrite Rtrigo_facts.cos_pi_minus, Rtrigo_facts.sin_pi_minus, C, S. split; lra.
    - replace (INR 3 * (PI / 3)) with PI by (cbn [INR]; field). split; [apply cos_PI|apply sin_PI].
    - replace (INR 4 * (PI / 3)) with (PI / 3 + PI) by (cbn [INR]; field). rewrite neg_cos, neg_sin, C, S. split; lra.
    - replace (INR 5 * (PI / 3)) with (- (PI / 3) + 2 * PI * IZR 1) by (cbn [INR]; field). rewrite cos_turns, sin_turns, cos_neg, sin_neg, C, S. split; lra. }
  destruct (B (k mod 6)%nat (Nat.mod_upper_bound k 6 ltac:(lia))) as [<- <-].
  assert (E : INR k * (PI / 3) = INR (k mod 6) * (PI / 3) + 2 * PI * IZR (Z.of_nat (k / 6))).
  { rewrite <- INR_IZR_INZ. rewrite (Nat.div_mod k 6 ltac:(lia)) at 1. rewrite plus_INR, mult_INR. cbn [INR]. field. }
  rewrite E at 1. rewrite cos_turns. split; [reflexivity|]. rewrite E at 1. apply sin_turns.
Qed.
Definition six : list (list R) := map (fun k => [INR k * (PI / 3)]) (seq 0 6).
Lemma poly1 c0 c1 c2 k : trig_poly (cc_labels 1 1) [c0; c1; c2] [INR k * (PI / 3)] =
  c0 + c1 * nth (k mod 6) [1; 1/2; -1/2; -1; -1/2; 1/2] 0 + c2 * nth (k mod 6) [0; s3; s3; 0; -s3; -s3] 0.
Proof.
  destruct (third k) as [<- <-].
  unfold trig_poly. cbn [cc_labels seq flat_map map app length]. rewrite Rsum_cons, Rsum_nil. cbn [nth plus]. replace (INR 1) with 1 by reflexivity.
  rewrite Rmult_1_l. ring.
Qed.
Lemma poly2 c0 c1 c2 c3 c4 k : trig_poly (cc_labels 1 2) [c0; c1; c2; c3; c4] [INR k * (PI / 3)] =
  c0 + c1 * nth (k mod 6) [1; 1/2; -1/2; -1; -1/2; 1/2] 0 + c2 * nth ((2 * k) mod 6) [1; 1/2; -1/2; -1; -1/2; 1/2] 0
  + c3 * nth (k mod 6) [0; s3; s3; 0; -s3; -s3] 0 + c4 * nth ((2 * k) mod 6) [0; s3; s3; 0; -s3; -s3] 0.
Proof.
  destruct (third k) as [<- <-]. destruct (third (2 * k)) as [<- <-].
  unfold trig_poly. cbn [cc_labels seq flat_map map app length]. rewrite !Rsum_cons, Rsum_nil. cbn [nth plus]. replace (INR 1) with 1 by reflexivity.
  rewrite Rmult_1_l. replace (INR 2 * (INR k * (PI / 3))) with (INR (2 * k) * (PI / 3)) by (rewrite mult_INR; ring). ring.
Qed.
Lemma len3 (c : list R) : length c = 3%nat -> exists a b d, c = [a; b; d].
Proof. destruct c as [|a [|b [|d [|]]]]; try discriminate. intros _. now exists a, b, d. Qed.
Lemma len5 (c : list R) : length c = 5%nat -> exists a b d e f, c = [a; b; d; e; f].
Proof. destruct c as [|a [|b [|d [|e [|f [|]]]]]]; try discriminate. intros _. now exists a, b, d, e, f. Qed.
Lemma s3_pos : 0 < s3.
Proof. unfold s3. pose proof (sqrt_lt_R0 3 ltac:(lra)). lra. Qed.
Lemma six_independent l : (forall x, In x six -> In x l) -> independent (cc_labels 1 2) l.
Proof.
  intros Hin b Hb Hz. destruct (len5 b Hb) as (c0 & c1 & c2 & c3 & c4 & ->).
  assert (K : forall k, (k < 6)%nat -> trig_poly (cc_labels 1 2) [c0; c1; c2; c3; c4] [INR k * (PI / 3)] = 0).
  { intros k Hk. apply Hz, Hin. unfold six. apply in_map_iff. exists k. split; [reflexivity|apply in_seq; lia]. }
  pose proof (K 0 ltac:(lia))%nat as K0. pose proof (K 1 ltac:(lia))%nat as K1. pose proof (K 2 ltac:(lia))%nat as K2. pose proof (K 3 ltac:(lia))%nat as K3.
  pose proof (K 4 ltac:(lia))%nat as K4. pose proof (K 5 ltac:(lia))%nat as K5. rewrite poly2 in K0, K1, K2, K3, K4, K5. cbn in K0, K1, K2, K3, K4, K5.
  pose proof s3_pos. assert (A0 : c0 = 0) by lra. assert (A1 : c1 = 0) by lra. assert (A2 : c2 = 0) by lra.
  assert (A3 : c3 * s3 = 0) by lra. assert (A4 : c4 * s3 = 0) by lra.
  apply Rmult_integral in A3. apply Rmult_integral in A4. intros v [<-|[<-|[<-|[<-|[<-|[]]]]]]; auto; [destruct A3|destruct A4]; lra.
Qed.

(** Twelve observations whose verdict changes with the reference direction. *)
Definition h : R := cos (PI / 4).
Lemma h_sq : h * h = 1 / 2.
Proof. unfold h. rewrite cos_PI4. pose proof Rlt_sqrt2_0. pose proof (sqrt_sqrt 2 ltac:(lra)). unfold Rdiv. rewrite !Rmult_1_l. rewrite <- Rinv_mult. rewrite H0. reflexivity. Qed.
Lemma quarter_dirs : (cos (PI / 4) = h /\ sin (PI / 4) = h) /\ (cos (3 * (PI / 4)) = - h /\ sin (3 * (PI / 4)) = h) /\
  (cos (- (PI / 4)) = h /\ sin (- (PI / 4)) = - h) /\ (cos (- (3 * (PI / 4))) = - h /\ sin (- (3 * (PI / 4))) = - h).
Proof.
  assert (S : sin (PI / 4) = h) by (unfold h; rewrite sin_PI4, cos_PI4; reflexivity).
  assert (C3 : cos (3 * (PI / 4)) = - h /\ sin (3 * (PI / 4)) = h).
  { replace (3 * (PI / 4)) with (PI - PI / 4) by field. rewrite Rtrigo_facts.cos_pi_minus, Rtrigo_facts.sin_pi_minus, S. now split. }
  rewrite !cos_neg, !sin_neg. destruct C3 as [-> ->]. rewrite S. repeat split; reflexivity.
Qed.
Definition th6 : list R := [PI / 4; 3 * (PI / 4); - (PI / 4); 3 * (PI / 4); PI / 4; - (3 * (PI / 4))].
Definition th6r : list R := [PI / 2; PI; 0; PI; PI / 2; - (PI / 2)].
Definition x12 : list (list R) := six ++ six.
Definition th12 : list R := th6 ++ th6.
Definition th12r : list R := th6r ++ th6r.
Lemma combine_app {A B} (a a' : list A) (b b' : list B) : length a = length b -> combine (a ++ a') (b ++ b') = combine a b ++ combine a' b'.
Proof. revert b. induction a as [|x a IH]; intros [|y b] H; try discriminate; [reflexivity|]. cbn. f_equal. apply IH. now injection H. Qed.
Lemma sum12 (F : R * list R -> R) th : length th = 6%nat ->
  Rsum (map F (combine (th ++ th) x12)) = 2 * Rsum (map F (combine th six)).
Proof. intros H. unfold x12. rewrite combine_app by exact H. rewrite map_app, Rsum_app. lra. Qed.
Lemma x12_ne : x12 <> [].
Proof. discriminate. Qed.

Ltac six_sum := cbn [th6 th6r six seq map combine fst snd]; rewrite !Rsum_cons, ?Rsum_nil; rewrite ?poly1, ?poly2; cbn [Nat.modulo Nat.divmod Nat.mul Nat.add Nat.sub fst snd nth].
Lemma rss_12 lstsq o g th d v : right_lstsq lstsq -> length th = 6%nat -> length d = (1 + 2 * (1 * o))%nat ->
  (forall c, length c = (1 + 2 * (1 * o))%nat -> Rsum (map (fun e => (g (fst e) - trig_poly (cc_labels 1 o) d (snd e)) * trig_poly (cc_labels 1 o) c (snd e)) (combine th six)) = 0) ->
  Rsum (map (fun e => (g (fst e) - trig_poly (cc_labels 1 o) d (snd e)) ^ 2) (combine th six)) = v ->
  trig_rss (cc_labels 1 o) g (combine (th ++ th) x12) (lstsq (design 1 o x12) (map g (th ++ th))) = 2 * v.
Proof.
  intros Hl Ht Ld Od Hv. rewrite (rss_at lstsq 1 o g (th ++ th) x12 d Hl).
  - unfold trig_rss. rewrite sum12 by exact Ht. now rewrite Hv.
  - rewrite app_length, Ht. reflexivity.
  - exact x12_ne.
  - exact Ld.
  - intros c Lc. rewrite sum12 by exact Ht. rewrite (Od c Lc). ring.
Qed.
Lemma fit2 c0 c2 c4 : let d := [c0; 0; c2; 0; c4 * s3] in
  forall k, trig_poly (cc_labels 1 2) d [INR k * (PI / 3)] = c0 + c2 * nth ((2 * k) mod 6) [1; 1/2; -1/2; -1; -1/2; 1/2] 0 + 3 / 4 * c4 * nth ((2 * k) mod 6) [0; 1; 1; 0; -1; -1] 0.
Proof.
  intros d k. unfold d. rewrite poly2. pose proof s3_sq as Hs. generalize ((2 * k) mod 6). intros j.
  assert (E : s3 * nth j [0; s3; s3; 0; - s3; - s3] 0 = 3 / 4 * nth j [0; 1; 1; 0; -1; -1] 0) by (destruct j as [|[|[|[|[|[|[|j]]]]]]]; cbn [nth]; lra).
  replace (c4 * s3 * nth j [0; s3; s3; 0; - s3; - s3] 0) with (c4 * (s3 * nth j [0; s3; s3; 0; - s3; - s3] 0)) by ring. rewrite E. ring.
Qed.
Ltac six_fit := cbn [th6 th6r six seq map combine fst snd]; rewrite !Rsum_cons, ?Rsum_nil; rewrite ?fit2; rewrite ?poly2; cbn [Nat.modulo Nat.divmod Nat.mul Nat.add Nat.sub fst snd nth].
Lemma rss_values lstsq : right_lstsq lstsq ->
  let rss o g th := trig_rss (cc_labels 1 o) g (combine (th ++ th) x12) (lstsq (design 1 o x12) (map g (th ++ th))) in
  rss 1%nat cos th6 = 6 /\ rss 2%nat cos th6 = 6 /\ rss 1%nat sin th6 = 16 / 3 /\ rss 2%nat sin th6 = 0 /\
  rss 1%nat cos th6r = 17 / 3 /\ rss 2%nat cos th6r = 3 /\ rss 1%nat sin th6r = 17 / 3 /\ rss 2%nat sin th6r = 3.
Proof.
  intros Hl rss. destruct quarter_dirs as ((Q1 & Q2) & (Q3 & Q4) & (Q5 & Q6) & Q7 & Q8). pose proof h_sq as Hh. pose proof s3_sq as Hs.
  assert (H4 : cos (- (PI / 2)) = 0 /\ sin (- (PI / 2)) = -1) by (rewrite cos_neg, sin_neg, cos_PI2, sin_PI2; split; lra). destruct H4 as [Q9 Q10].
  assert (Hh4 : h ^ 2 = 1 / 2) by (cbn [pow]; lra).
  repeat split; unfold rss.
  - replace 6 with (2 * 3) by lra. apply (rss_12 lstsq 1 cos th6 [0; 0; 0] 3 Hl eq_refl eq_refl).
    + intros c Lc. destruct (len3 c Lc) as (a & b & d & ->). six_sum. rewrite Q1, Q3, Q5, Q7. lra.
    + six_sum. rewrite Q1, Q3, Q5, Q7. nra.
  - replace 6 with (2 * 3) by lra. apply (rss_12 lstsq 2 cos th6 [0; 0; 0; 0; 0] 3 Hl eq_refl eq_refl).
    + intros c Lc. destruct (len5 c Lc) as (a & b & d & e & f & ->). six_sum. rewrite Q1, Q3, Q5, Q7. lra.
    + six_sum. rewrite Q1, Q3, Q5, Q7. nra.
  - replace (16 / 3) with (2 * (8 / 3)) by lra. apply (rss_12 lstsq 1 sin th6 [h / 3; 0; 0] (8/3) Hl eq_refl eq_refl).
    + intros c Lc. destruct (len3 c Lc) as (a & b & d & ->). six_sum. rewrite Q2, Q4, Q6, Q8. lra.
    + six_sum. rewrite Q2, Q4, Q6, Q8. nra.
  - replace 0 with (2 * 0) by lra. apply (rss_12 lstsq 2 sin th6 [h / 3; 0; 2 * h / 3; 0; (4 / 3 * h) * s3] 0 Hl eq_refl eq_refl).
    + intros c Lc. destruct (len5 c Lc) as (a & b & d & e & f & ->). six_fit. rewrite Q2, Q4, Q6, Q8. lra.
    + six_fit. rewrite Q2, Q4, Q6, Q8. nra.
  - replace (17 / 3) with (2 * (17 / 6)) by lra. apply (rss_12 lstsq 1 cos th6r [-1/6; 0; 0] (17/6) Hl eq_refl eq_refl).
    + intros c Lc. destruct (len3 c Lc) as (a & b & d & ->). six_sum. rewrite cos_PI2, cos_PI, cos_0, Q9. lra.
    + six_sum. rewrite cos_PI2, cos_PI, cos_0, Q9. lra.
  - replace 3 with (2 * (3 / 2)) by lra. apply (rss_12 lstsq 2 cos th6r [-1/6; 0; -1/3; 0; -2/3 * s3] (3/2) Hl eq_refl eq_refl).
    + intros c Lc. destruct (len5 c Lc) as (a & b & d & e & f & ->). six_fit. rewrite cos_PI2, cos_PI, cos_0, Q9. lra.
    + six_fit. rewrite cos_PI2, cos_PI, cos_0, Q9. lra.
  - replace (17 / 3) with (2 * (17 / 6)) by lra. apply (rss_12 lstsq 1 sin th6r [1/6; 0; 0] (17/6) Hl eq_refl eq_refl).
    + intros c Lc. destruct (len3 c Lc) as (a & b & d & ->). six_sum. rewrite sin_PI2, sin_PI, sin_0, Q10. lra.
    + six_sum. rewrite sin_PI2, sin_PI, sin_0, Q10. lra.
  - replace 3 with (2 * (3 / 2)) by lra. apply (rss_12 lstsq 2 sin th6r [1/6; 0; 1/3; 0; 2/3 * s3] (3/2) Hl eq_refl eq_refl).
    + intros c Lc. destruct (len5 c Lc) as (a & b & d & e & f & ->). six_fit. rewrite sin_PI2, sin_PI, sin_0, Q10. lra.
    + six_fit. rewrite sin_PI2, sin_PI, sin_0, Q10. lra.
Qed.
Lemma th12_data : cc_data th12 1 x12 /\ cc_data th12r 1 x12.
Proof.
  assert (Hx : forall r, In r x12 -> length r = 1%nat).
  { intros r Hr. unfold x12 in Hr. apply in_app_or in Hr. assert (Hr' : In r six) by tauto. unfold six in Hr'. apply in_map_iff in Hr'. destruct Hr' as (k & <- & _). reflexivity. }
  split; (split; [reflexivity|]; split; [exact x12_ne|exact Hx]).
Qed.
Lemma chi2_two x : 1 - chi2_even x 2 = exp (- x / 2).
Proof. unfold chi2_even. cbn [Nat.div2 seq map fact]. rewrite Rsum_cons, Rsum_nil. cbn [pow INR]. field. Qed.
Lemma exp_vals : exp (- (9) / 2) < 1 / 20 /\ 1 / 20 < exp (- (72 / 17) / 2).
Proof.
  split.
  - apply (Rmult_lt_reg_r (exp (9 / 2))); [apply exp_pos|]. rewrite <- exp_plus. replace (- (9) / 2 + 9 / 2) with 0 by field. rewrite exp_0.
    assert (16 < exp 4).
    { assert (E : exp 4 = exp 1 * exp 1 * (exp 1 * exp 1)) by (rewrite <- !exp_plus; f_equal; lra). rewrite E.
      assert (2 < exp 1) by (pose proof (exp_ineq1 1 ltac:(lra)); lra). assert (4 < exp 1 * exp 1) by nra. nra. }
    replace (9 / 2) with (4 + 1 / 2) by lra. rewrite exp_plus. assert (3 / 2 < exp (1 / 2)) by (pose proof (exp_ineq1 (1 / 2) ltac:(lra)); lra). nra.
  - apply (Rmult_lt_reg_r (exp (36 / 17))); [apply exp_pos|]. rewrite <- exp_plus. replace (- (72 / 17) / 2 + 36 / 17) with 0 by field. rewrite exp_0.
    assert (H : exp (5 / 2) * exp (5 / 2) <= 243). { rewrite <- exp_plus. replace (5 / 2 + 5 / 2) with (1 + 1 + 1 + 1 + 1) by lra. rewrite !exp_plus. pose proof exp_le_3. pose proof (exp_pos 1).
      assert (exp 1 * exp 1 <= 9) by nra. assert (exp 1 * exp 1 * exp 1 <= 27) by nra. assert (exp 1 * exp 1 * exp 1 * exp 1 <= 81) by nra. nra. }
    assert (exp (36 / 17) < exp (5 / 2)) by (apply exp_increasing; lra). pose proof (exp_pos (5 / 2)). assert (exp (5 / 2) < 20) by nra. lra.
Qed.
Lemma Rmax_small a : / 10 ^ 12 <= a -> Rmax a (/ 10 ^ 12) = a.
Proof. intros. now apply Rmax_left. Qed.
Lemma small_le1 : / 10 ^ 12 <= 1.
Proof. rewrite <- Rinv_1. apply Rinv_le_contravar; lra. Qed.
Lemma verdict_turns lstsq inv pinv : right_lstsq lstsq -> right_inv inv -> exists theta theta' rows c c',
  cc_data theta 1 rows /\ (forall i, (i < length theta)%nat -> same_dir (nth i theta' 0) (nth i theta 0 + PI / 4)) /\ length theta' = length theta /\
  CCRegression lstsq inv pinv chi2_even None None (Some (map Fin theta)) (Some (X2 1 (map (map Fin) rows))) 1 (1 / 20) = Ok c /\
  CCRegression lstsq inv pinv chi2_even None None (Some (map Fin theta')) (Some (X2 1 (map (map Fin) rows))) 1 (1 / 20) = Ok c' /\
  cc_message c = Significant /\ cc_message c' = NotSignificant.
Proof.
  intros Hl Hinv. exists th12, th12r, x12. destruct th12_data as [D Dr].
  assert (Hx : forall r, In r x12 -> length r = 1%nat) by apply D.
  destruct (cc_total lstsq inv pinv chi2_even th12 1 x12 1 (1/20) ltac:(lia) ltac:(lra) D) as [c E]. destruct (cc_total lstsq inv pinv chi2_even th12 1 x12 (1 + 1) (1/20) ltac:(lia) ltac:(lra) D) as [c2 E2].
  destruct (cc_total lstsq inv pinv chi2_even th12r 1 x12 1 (1/20) ltac:(lia) ltac:(lra) Dr) as [c' E']. destruct (cc_total lstsq inv pinv chi2_even th12r 1 x12 (1 + 1) (1/20) ltac:(lia) ltac:(lra) Dr) as [c2' E2'].
  exists c, c'. split; [exact D|]. split.
  { intros i Hi. cbn in Hi.
    do 12 (destruct i as [|i]; [cbn [th12r th12 th6 th6r app nth]; first [exists 0%Z; simpl IZR; lra | exists 1%Z; simpl IZR; lra | exists (-1)%Z; simpl IZR; lra]|]). lia. }
  split; [reflexivity|]. split; [exact E|]. split; [exact E'|].
  destruct (cc_inv _ _ _ _ _ _ _ _ _ _ Hx E) as (_ & _ & _ & Ec & Es & Eb & _ & _ & _ & _ & Em).
  destruct (cc_inv _ _ _ _ _ _ _ _ _ _ Hx E2) as (_ & _ & _ & Ec2 & Es2 & Eb2 & _).
  destruct (cc_inv _ _ _ _ _ _ _ _ _ _ Hx E') as (_ & _ & _ & Ec' & Es' & Eb' & _ & _ & _ & _ & Em').
  destruct (cc_inv _ _ _ _ _ _ _ _ _ _ Hx E2') as (_ & _ & _ & Ec2' & Es2' & Eb2' & _).
  assert (I2 : forall x, In x six -> In x x12) by (intros x Hx'; unfold x12; apply in_or_app; now left).
  destruct (cc_test _ _ _ _ _ _ _ _ _ _ _ Hl Hinv D ltac:(lia) E E2) as (P & _ & _); [rewrite Eb2; apply (six_independent x12 I2)|].
  destruct (cc_test _ _ _ _ _ _ _ _ _ _ _ Hl Hinv Dr ltac:(lia) E' E2') as (P' & _ & _); [rewrite Eb2'; apply (six_independent x12 I2)|].
  change (Z.to_nat 1) with 1%nat in *. change (Z.to_nat (1 + 1)) with 2%nat in *.
  destruct (rss_values lstsq Hl) as (V1 & V2 & V3 & V4 & V5 & V6 & V7 & V8). fold th12 in V1, V2, V3, V4. fold th12r in V5, V6, V7, V8.
  rewrite Eb, Eb2, Ec, Es, Ec2, Es2, V1, V2, V3, V4 in P. rewrite Eb', Eb2', Ec', Es', Ec2', Es2', V5, V6, V7, V8 in P'.
  cbv zeta in P, P'. pose proof small_le1. rewrite (Rmax_small 6), (Rmax_small (16 / 3)) in P by lra. rewrite (Rmax_small (17 / 3)) in P' by lra.
  change (length th12) with 12%nat in P. change (length th12r) with 12%nat in P'. cbn [Nat.mul Nat.add Nat.sub Nat.max] in P, P'. rewrite !chi2_two in P, P'.
  destruct exp_vals as [X1 X2]. replace (INR 9) with 9 in P, P' by (cbn; lra).
  rewrite Em, P, Em', P'. repeat rewrite chi2_two. split.
  - replace (- (9 * (16 / 3 - 0) / (16 / 3)) / 2) with (- (9) / 2) by field. destruct (Rltb_spec (1 / 20) (exp (- (9) / 2))); [lra|]. rewrite andb_false_r. reflexivity.
  - replace (- (9 * (17 / 3 - 3) / (17 / 3)) / 2) with (- (72 / 17) / 2) by field. destruct (Rltb_spec (1 / 20) (exp (- (72 / 17) / 2))); [reflexivity|lra].
Qed.

(** Two predictors: nine observations on a cross. *)
Definition arm : list R := [0; PI / 2; PI; 3 * (PI / 2); PI / 4].
Definition cross : list (list R) := map (fun a => [a; 0]) arm ++ map (fun a => [0; a]) (tl arm).
Definition thx : list R := map (fun r => 2 * nth 0 r 0) cross.
Lemma arm_dirs : (cos 0 = 1 /\ sin 0 = 0) /\ (cos (PI / 2) = 0 /\ sin (PI / 2) = 1) /\ (cos PI = -1 /\ sin PI = 0) /\ (cos (3 * (PI / 2)) = 0 /\ sin (3 * (PI / 2)) = -1) /\ (cos (PI / 4) = h /\ sin (PI / 4) = h).
Proof. rewrite cos_0, sin_0, cos_PI2, sin_PI2, cos_PI, sin_PI, cos_3PI2, sin_3PI2. destruct quarter_dirs as ((Q1 & Q2) & _). repeat split; first [reflexivity|exact Q1|exact Q2]. Qed.
Lemma arm_dirs2 : (cos (2 * 0) = 1 /\ sin (2 * 0) = 0) /\ (cos (2 * (PI / 2)) = -1 /\ sin (2 * (PI / 2)) = 0) /\ (cos (2 * PI) = 1 /\ sin (2 * PI) = 0)
  /\ (cos (2 * (3 * (PI / 2))) = -1 /\ sin (2 * (3 * (PI / 2))) = 0) /\ (cos (2 * (PI / 4)) = 0 /\ sin (2 * (PI / 4)) = 1).
Proof.
  destruct arm_dirs as ((A1 & A2) & (A3 & A4) & (A5 & A6) & (A7 & A8) & A9 & A10). pose proof h_sq.
  rewrite !sin_2a, !cos_2a, A1, A2, A3, A4, A5, A6, A7, A8, A9, A10. repeat split; lra.
Qed.
Lemma poly21 b x y : length b = 5%nat -> trig_poly (cc_labels 2 1) b [x; y] =
  nth 0 b 0 + nth 1 b 0 * cos x + nth 2 b 0 * cos y + nth 3 b 0 * sin x + nth 4 b 0 * sin y.
Proof.
  intros _. unfold trig_poly. cbn [cc_labels seq flat_map map app length]. rewrite !Rsum_cons, Rsum_nil. cbn [nth plus]. replace (INR 1) with 1 by reflexivity. rewrite !Rmult_1_l. ring.
Qed.
Lemma poly22 b x y : length b = 9%nat -> trig_poly (cc_labels 2 2) b [x; y] =
  nth 0 b 0 + nth 1 b 0 * cos x + nth 2 b 0 * cos (2 * x) + nth 3 b 0 * cos y + nth 4 b 0 * cos (2 * y) + nth 5 b 0 * sin x + nth 6 b 0 * sin (2 * x) + nth 7 b 0 * sin y + nth 8 b 0 * sin (2 * y).
Proof.
  intros _. unfold trig_poly. cbn [cc_labels seq flat_map map app length]. rewrite !Rsum_cons, Rsum_nil. cbn [nth plus]. replace (INR 1) with 1 by reflexivity. replace (INR 2) with 2 by reflexivity. rewrite !Rmult_1_l. ring.
Qed.
Lemma h_pos : 0 < h.
Proof. unfold h. apply cos_gt_0; pose proof PI_RGT_0; lra. Qed.
Lemma cross_independent : independent (cc_labels 2 2) cross.
Proof.
  intros b Hb Hz. destruct arm_dirs as ((A1 & A2) & (A3 & A4) & (A5 & A6) & (A7 & A8) & A9 & A10). destruct arm_dirs2 as ((B1 & B2) & (B3 & B4) & (B5 & B6) & (B7 & B8) & B9 & B10).
  assert (P := fun a H => Hz [a; 0] (in_or_app _ _ _ (or_introl (in_map (fun a => [a; 0]) arm a H)))).
  assert (Q := fun a H => Hz [0; a] (in_or_app _ _ _ (or_intror (in_map (fun a => [0; a]) (tl arm) a H)))).
  assert (P0 := P 0 ltac:(cbn; tauto)). assert (P1 := P (PI / 2) ltac:(cbn; tauto)). assert (P2 := P PI ltac:(cbn; tauto)). assert (P3 := P (3 * (PI / 2)) ltac:(cbn; tauto)). assert (P4 := P (PI / 4) ltac:(cbn; tauto)).
  assert (Q1 := Q (PI / 2) ltac:(cbn; tauto)). assert (Q2 := Q PI ltac:(cbn; tauto)). assert (Q3 := Q (3 * (PI / 2)) ltac:(cbn; tauto)). assert (Q4 := Q (PI / 4) ltac:(cbn; tauto)). clear P Q Hz.
  cbn in Hb. rewrite poly22 in P0, P1, P2, P3, P4, Q1, Q2, Q3, Q4 by exact Hb.
  rewrite ?A1, ?A2, ?A3, ?A4, ?A5, ?A6, ?A7, ?A8, ?A9, ?A10, ?B1, ?B2, ?B3, ?B4, ?B5, ?B6, ?B7, ?B8, ?B9, ?B10 in P0.
  rewrite ?A1, ?A2, ?A3, ?A4, ?A5, ?A6, ?A7, ?A8, ?A9, ?A10, ?B1, ?B2, ?B3, ?B4, ?B5, ?B6, ?B7, ?B8, ?B9, ?B10 in P1.
  rewrite ?A1, ?A2, ?A3, ?A4, ?A5, ?A6, ?A7, ?A8, ?A9, ?A10, ?B1, ?B2, ?B3, ?B4, ?B5, ?B6, ?B7, ?B8, ?B9, ?B10 in P2.
  rewrite ?A1, ?A2, ?A3, ?A4, ?A5, ?A6, ?A7, ?A8, ?A9, ?A10, ?B1, ?B2, ?B3, ?B4, ?B5, ?B6, ?B7, ?B8, ?B9, ?B10 in P3.
  rewrite ?A1, ?A2, ?A3, ?A4, ?A5, ?A6, ?A7, ?A8, ?A9, ?A10, ?B1, ?B2, ?B3, ?B4, ?B5, ?B6, ?B7, ?B8, ?B9, ?B10 in P4.
  rewrite ?A1, ?A2, ?A3, ?A4, ?A5, ?A6, ?A7, ?A8, ?A9, ?A10, ?B1, ?B2, ?B3, ?B4, ?B5, ?B6, ?B7, ?B8, ?B9, ?B10 in Q1.
  rewrite ?A1, ?A2, ?A3, ?A4, ?A5, ?A6, ?A7, ?A8, ?A9, ?A10, ?B1, ?B2, ?B3, ?B4, ?B5, ?B6, ?B7, ?B8, ?B9, ?B10 in Q2.
  rewrite ?A1, ?A2, ?A3, ?A4, ?A5, ?A6, ?A7, ?A8, ?A9, ?A10, ?B1, ?B2, ?B3, ?B4, ?B5, ?B6, ?B7, ?B8, ?B9, ?B10 in Q3.
  rewrite ?A1, ?A2, ?A3, ?A4, ?A5, ?A6, ?A7, ?A8, ?A9, ?A10, ?B1, ?B2, ?B3, ?B4, ?B5, ?B6, ?B7, ?B8, ?B9, ?B10 in Q4.
  destruct b as [|b0 [|b1 [|b2 [|b3 [|b4 [|b5 [|b6 [|b7 [|b8 [|]]]]]]]]]]; try discriminate. cbn [nth] in *. pose proof h_pos.
  assert (b1 = 0) by lra. assert (b5 = 0) by lra. assert (b2 = 0) by lra. assert (b3 = 0) by lra. assert (b7 = 0) by lra. assert (b4 = 0) by lra. assert (b0 = 0) by lra. subst b1 b5 b2 b3 b7 b4 b0.
  assert (b6 = 0) by lra. assert (b8 = 0) by lra. subst. intros v Hv. cbn in Hv. intuition.
Qed.
Lemma cross_data : cc_data thx 2 cross.
Proof. split; [reflexivity|]. split; [discriminate|]. intros r Hr. cbn in Hr. intuition; subst; reflexivity. Qed.
Lemma cross_rss2 lstsq : right_lstsq lstsq -> trig_rss (cc_labels 2 2) cos (combine thx cross) (lstsq (design 2 2 cross) (map cos thx)) = 0.
Proof.
  intros Hl. set (d := [0; 0; 1; 0; 0; 0; 0; 0; 0]).
  assert (Z : forall e, In e (combine thx cross) -> cos (fst e) - trig_poly (cc_labels 2 2) d (snd e) = 0).
  { intros e He. unfold thx, cross, arm in He. cbn in He. repeat (destruct He as [<-|He]; [cbn [fst snd]; rewrite poly22 by reflexivity; unfold d; cbn [nth]; ring|]). destruct He. }
  rewrite (rss_at lstsq 2 2 cos thx cross d Hl eq_refl ltac:(discriminate) eq_refl).
  - unfold trig_rss. transitivity (Rsum (map (fun _ => 0) (combine thx cross))); [|rewrite Rsum_map_const; ring]. apply Rsum_map_ext. intros e He. rewrite (Z e He). ring.
  - intros c _. transitivity (Rsum (map (fun _ => 0) (combine thx cross))); [|rewrite Rsum_map_const; ring]. apply Rsum_map_ext. intros e He. rewrite (Z e He). ring.
Qed.
Lemma cross_rss1 lstsq : right_lstsq lstsq -> 4 <= trig_rss (cc_labels 2 1) cos (combine thx cross) (lstsq (design 2 1 cross) (map cos thx)).
Proof.
  intros Hl. destruct (cc_orth lstsq 2 1 cos thx cross Hl eq_refl ltac:(discriminate)) as [Lb _]. set (b := lstsq (design 2 1 cross) (map cos thx)) in *. clearbody b.
  assert (Hs : exists r0 r1 r2 r3, trig_rss (cc_labels 2 1) cos (combine thx cross) b >= r0 ^ 2 + r1 ^ 2 + r2 ^ 2 + r3 ^ 2 /\ r0 - r1 + r2 - r3 = 4).
  { destruct arm_dirs as ((A1 & A2) & (A3 & A4) & (A5 & A6) & (A7 & A8) & A9 & A10). destruct arm_dirs2 as ((B1 & B2) & (B3 & B4) & (B5 & B6) & (B7 & B8) & B9 & B10).
    set (r := fun a => cos (2 * a) - trig_poly (cc_labels 2 1) b [a; 0]).
    exists (r 0), (r (PI / 2)), (r PI), (r (3 * (PI / 2))). split.
    - unfold trig_rss, thx, cross, arm. cbn [map app tl combine fst snd nth]. rewrite !Rsum_cons, Rsum_nil. unfold r.
      match goal with |- ?a + (?b + (?c + (?d + ?e))) >= _ => enough (0 <= e) by lra end.
      repeat (apply Rplus_le_le_0_compat; [apply pow2_ge_0|]). lra.
    - unfold r. rewrite !poly21 by exact Lb. rewrite B1, B3, B5, B7, A1, A2, A3, A4, A5, A6, A7, A8. ring. }
  destruct Hs as (r0 & r1 & r2 & r3 & H1 & H2). pose proof (pow2_ge_0 (r0 + r1)). pose proof (pow2_ge_0 (r0 - r2)). pose proof (pow2_ge_0 (r0 + r3)). pose proof (pow2_ge_0 (r1 + r2)). pose proof (pow2_ge_0 (r1 - r3)). pose proof (pow2_ge_0 (r2 + r3)).
  assert ((r0 - r1 + r2 - r3) ^ 2 = 16) by (rewrite H2; ring). nra.
Qed.
Lemma chi2_four x : 1 - chi2_even x 4 = exp (- x / 2) * (1 + x / 2).
Proof. unfold chi2_even. cbn [Nat.div2 seq map fact]. rewrite !Rsum_cons, Rsum_nil. cbn [pow INR Nat.mul Nat.add]. field. Qed.
Lemma two_predictors lstsq inv pinv : right_lstsq lstsq -> right_inv inv -> exists theta rows c c',
  cc_data theta 2 rows /\ independent (cc_lab c') rows /\
  CCRegression lstsq inv pinv chi2_even None None (Some (map Fin theta)) (Some (X2 2 (map (map Fin) rows))) 1 (1 / 20) = Ok c /\
  CCRegression lstsq inv pinv chi2_even None None (Some (map Fin theta)) (Some (X2 2 (map (map Fin) rows))) 2 (1 / 20) = Ok c' /\
  let rss := trig_rss (cc_lab c) cos (combine theta rows) (cc_cos c) in
  let rss' := trig_rss (cc_lab c') cos (combine theta rows) (cc_cos c') in
  exists p1 p2, cc_p c = Some (p1, p2) /\
    p1 <> 1 - chi2_even (INR (Nat.max (length theta - length (cc_cos c)) 1) * (rss - rss') / Rmax rss (/ 10 ^ 12)) (2 * 2).
Proof.
  intros Hl Hinv. pose proof cross_data as D. assert (Hx : forall r, In r cross -> length r = 2%nat) by apply D.
  destruct (cc_total lstsq inv pinv chi2_even thx 2 cross 1 (1/20) ltac:(lia) ltac:(lra) D) as [c E]. destruct (cc_total lstsq inv pinv chi2_even thx 2 cross 2 (1/20) ltac:(lia) ltac:(lra) D) as [c' E'].
  destruct (cc_inv _ _ _ _ _ _ _ _ _ _ Hx E) as (_ & _ & _ & Ec & _ & Eb & _). destruct (cc_inv _ _ _ _ _ _ _ _ _ _ Hx E') as (_ & _ & _ & Ec' & _ & Eb' & _).
  change (Z.to_nat 1) with 1%nat in *. change (Z.to_nat 2) with 2%nat in *.
  exists thx, cross, c, c'. split; [exact D|]. split; [rewrite Eb'; exact cross_independent|]. split; [exact E|]. split; [exact E'|].
  destruct (cc_test _ _ _ _ _ _ _ _ _ _ c' Hl Hinv D ltac:(lia) E) as (P & _ & _); [exact E'|rewrite Eb'; exact cross_independent|]. cbv zeta in *.
  destruct (cc_orth lstsq 2 1 cos thx cross Hl eq_refl ltac:(discriminate)) as [Lb _]. rewrite <- Ec in Lb. rewrite Lb.
  eexists. eexists. split; [exact P|]. rewrite Eb, Eb', Ec, Ec', cross_rss2 by exact Hl. pose proof (cross_rss1 lstsq Hl) as H4. set (u := trig_rss (cc_labels 2 1) cos (combine thx cross) _) in *.
  pose proof small_le1. rewrite (Rmax_small u) by lra. change (length thx) with 9%nat. change (Z.to_nat 1) with 1%nat. cbn [Nat.mul Nat.add Nat.sub Nat.max].
  replace (INR 6 * (u - 0) / u) with 6 by (cbn [INR]; field; lra). replace (INR 4 * (u - 0) / u) with 4 by (cbn [INR]; field; lra). rewrite !chi2_four.
  replace (- (6) / 2) with (- (4) / 2 + - (1)) by lra. rewrite exp_plus. rewrite exp_Ropp. pose proof (exp_pos (- (4) / 2)) as Hp. intros Heq.
  assert (K : / exp 1 * 4 = 3). { apply (Rmult_eq_reg_l (exp (- (4) / 2))); [|lra]. lra. }
  assert (2 < exp 1) by (pose proof (exp_ineq1 1 ltac:(lra)); lra). assert (/ exp 1 < / 2) by (apply Rinv_lt_contravar; lra). lra.
Qed.
(** Values and hypotheses for the examples. *)
Lemma oracles : exists lstsq inv, right_lstsq lstsq /\ right_inv inv.
Proof. destruct lstsq_exists as [l Hl]. destruct inv_exists as [i Hi]. exists l, i. now split. Qed.
Lemma th12_rho lstsq inv pinv chi2 : right_lstsq lstsq -> exists c rho,
  CCRegression lstsq inv pinv chi2 None None (Some (map Fin th12)) (Some (X2 1 (map (map Fin) x12))) 1 (1 / 20) = Ok c /\ cc_rho c = Fin rho /\ rho ^ 2 = 1 / 18.
Proof.
  intros Hl. destruct th12_data as [D _]. destruct (cc_total lstsq inv pinv chi2 th12 1 x12 1 (1/20) ltac:(lia) ltac:(lra) D) as [c E].
  destruct (cc_rho_spec _ _ _ _ _ _ _ _ _ _ Hl D E) as (rho & Er & _ & Q). exists c, rho. split; [exact E|]. split; [exact Er|].
  destruct D as (_ & _ & Hx). destruct (cc_inv _ _ _ _ _ _ _ _ _ _ Hx E) as (_ & _ & _ & Ec & Es & Eb & _). change (Z.to_nat 1) with 1%nat in *.
  destruct (rss_values lstsq Hl) as (V1 & _ & V3 & _). fold th12 in V1, V3. rewrite Eb, Ec, Es, V1, V3 in Q. change (length th12) with 12%nat in Q.
  replace (INR 12) with 12 in Q by (cbn; lra). lra.
Qed.
Lemma th12_moved : moved_data 1 (PI / 4) 1 (fun _ => 0) th12 x12 th12r x12.
Proof.
  split; [reflexivity|]. split; [reflexivity|]. intros i Hi. split.
  - cbn in Hi. do 12 (destruct i as [|i]; [cbn [th12r th12 th6 th6r app nth]; first [exists 0%Z; simpl IZR; lra | exists 1%Z; simpl IZR; lra | exists (-1)%Z; simpl IZR; lra]|]). lia.
  - intros j. exists 0%Z. ring.
Qed.
Lemma labels_nodup p o : NoDup (cc_labels p o).
Proof.
  apply (NoDup_nth _ (0, 0)%nat). rewrite labels_length. intros i j Hi Hj E. rewrite !labels_nth in E by assumption. injection E as E1 E2.
  assert (Ho : (o <> 0)%nat) by (intros ->; lia). rewrite (Nat.div_mod i o Ho), (Nat.div_mod j o Ho). congruence.
Qed.
