(** Hodges-Ajne omnibus test. *)
From Verif Require Import Prelude NpModel NpProofs CircleSpec UtilsModel UtilsProofs
  DescModel DescProofs DescSpec DescApi DescApi2 Desc2Model Desc2Spec ArcProofs Desc3Proofs Desc4Proofs
  Desc6Proofs HypModel HypSpec HypProofs Hyp2Proofs.

Lemma half_flag line a :
  (let x := angmod0 (line - a) in Rltb 0 x && Rltb x PI) = false <-> in_closed_half line a.
Proof.
  cbv zeta. pose proof (angmod0_range (line - a)) as Rg. pose proof PI_pos as Hp.
  destruct (angmod0_same_dir (line - a)) as [k E].
  rewrite <- not_true_iff_false, andb_true_iff, !Rltb_true. split.
  - intros H. destruct (Req_dec (angmod0 (line - a)) 0) as [Z|N].
    + exists 0. split; [lra|]. exists k. lra.
    + exists (2 * PI - angmod0 (line - a)). split; [lra|]. exists (k - 1)%Z. rewrite minus_IZR. lra.
  - intros (t & Ht & [j F]) [H1 H2].
    assert (X : angmod0 (line - a) = 2 * PI - t).
    { destruct (Req_dec t 0) as [Z|N].
      - exfalso. assert (angmod0 (line - a) = 0); [|lra].
        apply angmod0_unique; [lra|]. exists j. lra.
      - apply angmod0_unique; [lra|]. exists (j + 1)%Z. rewrite plus_IZR. lra. }
    lra.
Qed.
Lemma omnibus_right_counts alpha line : counts (in_closed_half line) alpha (omnibus_right alpha line).
Proof.
  unfold omnibus_right. rewrite count_compl. apply counts_count_if. intros a _.
  rewrite <- half_flag. cbv zeta. destruct (Rltb 0 _ && Rltb _ PI); simpl; intuition congruence.
Qed.
Lemma omnibus_right_unique alpha line k : counts (in_closed_half line) alpha k -> k = omnibus_right alpha line.
Proof.
  intros H. unfold omnibus_right. rewrite count_compl. apply (counts_inv (in_closed_half line)); [|exact H].
  intros a _. rewrite <- half_flag. cbv zeta. destruct (Rltb 0 _ && Rltb _ PI); simpl; intuition congruence.
Qed.
Lemma nat_min_spec l x : (nat_min x l <= x)%nat /\ (forall y, In y l -> (nat_min x l <= y)%nat) /\
  (nat_min x l = x \/ In (nat_min x l) l).
Proof.
  unfold nat_min. revert x. induction l as [|y l IH]; intros x; simpl.
  - split; [lia|]. split; [intros y []|auto].
  - destruct (IH (Nat.min x y)) as (A & B & D). split; [lia|]. split.
    + intros z [<-|Hz]; [lia|auto].
    + destruct D as [D|D]; [|auto]. rewrite D. destruct (Nat.min_spec x y) as [[_ ->]|[_ ->]]; auto.
Qed.
Lemma omnibus_m_spec s alpha : (0 < s)%nat ->
  (exists i, (i < s * 360)%nat /\ omnibus_m s alpha = omnibus_right alpha (omnibus_line s i)) /\
  (forall i, (i < s * 360)%nat -> (omnibus_m s alpha <= omnibus_right alpha (omnibus_line s i))%nat).
Proof.
  intros Hs. unfold omnibus_m. set (f := fun i => omnibus_right alpha (omnibus_line s i)).
  destruct (nat_min_spec (map f (seq 1 (s * 360 - 1))) (f 0%nat)) as (A & B & D). split.
  - destruct D as [D|D]; [exists 0%nat; split; [lia|exact D]|].
    apply in_map_iff in D. destruct D as (i & E & Hi). apply in_seq in Hi. exists i. split; [lia|]. symmetry. exact E.
  - intros i Hi. destruct i as [|i]; [exact A|]. apply B. apply in_map_iff. exists (S i). split; [reflexivity|].
    apply in_seq. lia.
Qed.
Lemma omnibus_m_le s alpha : (0 < s)%nat -> (omnibus_m s alpha <= length alpha)%nat.
Proof.
  intros Hs. destruct (omnibus_m_spec s alpha Hs) as [_ B]. specialize (B 0%nat ltac:(lia)).
  unfold omnibus_right in B. lia.
Qed.
Lemma exp_lnfact k : exp (lnfact k) = INR (fact k).
Proof. unfold lnfact. apply exp_ln, INR_fact_lt_0. Qed.
Lemma exp_logp n m : (2 * m < n)%nat ->
  exp (ln (INR n - 2 * INR m) + lnfact n - lnfact m - lnfact (n - m) - (INR n - 1) * ln 2) = hodges_ajne_p n m.
Proof.
  intros H. assert (D : 0 < INR n - 2 * INR m).
  { apply lt_INR in H. rewrite mult_INR in H. simpl in H. lra. }
  unfold Rminus at 1 2 3. rewrite !exp_plus, !exp_Ropp, !exp_lnfact.
  replace (INR n - 2 * INR m) with (INR n + - (2 * INR m)) in * by ring. rewrite exp_ln by exact D.
  replace (INR n - 1) with (INR (n - 1)) by (rewrite minus_INR by lia; reflexivity).
  rewrite <- ln_pow by lra. rewrite exp_ln by (apply pow_lt; lra). unfold hodges_ajne_p.
  field. pose proof (INR_fact_neq_0 m). pose proof (INR_fact_neq_0 (n - m)).
  assert (2 ^ (n - 1) <> 0) by (apply pow_nonzero; lra). repeat split; assumption.
Qed.
Lemma omnibus_spec alpha s : (0 < s)%Z -> alpha <> [] ->
  exists t, omnibus_test alpha s = Ok t /\
    (exists i, (i < Z.to_nat s * 360)%nat /\
       counts (in_closed_half (PI * INR i / INR (Z.to_nat s * 360))) alpha (omni_m t)) /\
    (forall i k, (i < Z.to_nat s * 360)%nat ->
       counts (in_closed_half (PI * INR i / INR (Z.to_nat s * 360))) alpha k -> (omni_m t <= k)%nat) /\
    ((2 * omni_m t < length alpha)%nat ->
       omni_pval t = hodges_ajne_p (length alpha) (omni_m t) /\
       omni_A t = Fin (PI * sqrt (INR (length alpha)) / (2 * (INR (length alpha) - 2 * INR (omni_m t))))) /\
    ((length alpha <= 2 * omni_m t)%nat -> omni_pval t = 0 /\ omni_A t = PInf).
Proof.
  intros Hs Ha. unfold omnibus_test. destruct (Z.leb_spec s 0); [lia|].
  destruct (Nat.eqb_spec (length alpha) 0) as [E|_].
  { destruct alpha; [congruence|discriminate]. }
  assert (Hn : (0 < Z.to_nat s)%nat) by lia.
  pose proof (omnibus_m_le (Z.to_nat s) alpha Hn) as Hm.
  destruct (omnibus_m_spec (Z.to_nat s) alpha Hn) as [(i & Hi & Ei) B].
  set (m := omnibus_m (Z.to_nat s) alpha) in *.
  assert (F : INR (length alpha) - 2 * INR m = INR (length alpha) - INR (2 * m)) by (rewrite mult_INR; simpl; ring).
  destruct (Rleb_spec (INR (length alpha) - 2 * INR m) 0) as [L|L];
    (eexists; split; [reflexivity|]); cbn [omni_m omni_pval omni_A];
    (split; [exists i; split; [exact Hi|]; rewrite Ei; apply omnibus_right_counts|]);
    (split; [intros j k Hj Hk; rewrite (omnibus_right_unique _ _ _ Hk); apply B, Hj|]); split; auto.
  - intros H'. apply lt_INR in H'. lra.
  - intros H'. rewrite exp_logp by exact H'. auto.
  - intros H'. apply le_INR in H'. lra.
Qed.
Lemma hodges_ajne_pos n m : (2 * m < n)%nat -> 0 < hodges_ajne_p n m.
Proof.
  intros H. unfold hodges_ajne_p. apply Rdiv_lt_0_compat.
  - apply Rmult_lt_0_compat; [|apply INR_fact_lt_0]. apply lt_INR in H. rewrite mult_INR in H. simpl in H. lra.
  - repeat apply Rmult_lt_0_compat; try apply INR_fact_lt_0. apply pow_lt. lra.
Qed.
Lemma omnibus_right_ext alpha alpha' : length alpha = length alpha' ->
  (forall line, count_if (fun a => let x := angmod0 (line - a) in Rltb 0 x && Rltb x PI) alpha
              = count_if (fun a => let x := angmod0 (line - a) in Rltb 0 x && Rltb x PI) alpha') ->
  forall s, omnibus_test alpha s = omnibus_test alpha' s.
Proof.
  intros Hl Hc s.
  assert (E : omnibus_m (Z.to_nat s) alpha = omnibus_m (Z.to_nat s) alpha').
  { unfold omnibus_m, omnibus_right. rewrite Hl, Hc. f_equal. apply map_ext. intros i. now rewrite Hc. }
  unfold omnibus_test. rewrite Hl, E. reflexivity.
Qed.
Lemma omnibus_perm alpha alpha' s : Permutation alpha alpha' -> omnibus_test alpha s = omnibus_test alpha' s.
Proof.
  intros H. apply omnibus_right_ext; [apply Permutation_length, H|]. intros line. apply count_if_perm, H.
Qed.
Lemma omnibus_turned alpha alpha' s : turned alpha alpha' -> omnibus_test alpha s = omnibus_test alpha' s.
Proof.
  intros H. apply omnibus_right_ext; [apply (Forall2_len _ _ _ H)|]. intros line.
  unfold count_if. induction H as [|a b l l' Hab _ IH]; [reflexivity|]. cbn [filter].
  assert (E : angmod0 (line - a) = angmod0 (line - b)).
  { apply angmod0_eq_iff. apply same_dir_sub; [apply same_dir_refl|exact Hab]. }
  cbv zeta in *. rewrite E. destruct (Rltb 0 (angmod0 (line - b)) && Rltb (angmod0 (line - b)) PI); simpl; lia.
Qed.

(** *** The scan covers only half of the half circles. *)
Lemma omnibus_line_range s i : (0 < s)%nat -> (i < s * 360)%nat -> 0 <= omnibus_line s i < PI.
Proof.
  intros Hs Hi. unfold omnibus_line. pose proof PI_pos as Hp.
  assert (P : 0 < INR (s * 360)) by (apply lt_0_INR; lia). apply lt_INR in Hi. pose proof (pos_INR i) as P0.
  split.
  - apply Rmult_le_pos; [nra|left; apply Rinv_0_lt_compat, P].
  - apply Rmult_lt_reg_r with (INR (s * 360)); [exact P|].
    replace (PI * INR i / INR (s * 360) * INR (s * 360)) with (PI * INR i) by (field; lra). nra.
Qed.
Lemma flag_at line a t : 0 <= t < 2 * PI -> same_dir t (line - a) -> angmod0 (line - a) = t.
Proof. intros H D. now apply angmod0_unique. Qed.
Lemma omnibus_at_pi s : (0 < s)%nat -> omnibus_m s [3 * PI / 4; 5 * PI / 4] = 1%nat.
Proof.
  intros Hs. pose proof PI_pos as Hp. destruct (omnibus_m_spec s [3 * PI / 4; 5 * PI / 4] Hs) as [(i & Hi & Ei) B].
  assert (G : forall l, 0 <= l < PI -> (1 <= omnibus_right [3 * PI / 4; 5 * PI / 4]%R l)%nat).
  { intros l Hl. unfold omnibus_right, count_if. cbn [filter length].
    destruct (Rlt_le_dec (3 * PI / 4) l) as [L|L].
    - rewrite (flag_at l (5 * PI / 4) (l + 3 * PI / 4)); [|lra|exists 1%Z; lra].
      destruct (Rltb_spec (l + 3 * PI / 4) PI); [lra|]. rewrite andb_false_r. 
      match goal with |- context [if ?b then _ else _] => destruct b end; cbn [length]; lia.
    - assert (E : Rltb 0 (angmod0 (l - 3 * PI / 4)) && Rltb (angmod0 (l - 3 * PI / 4)) PI = false).
      { destruct (Req_dec l (3 * PI / 4)) as [->|N].
        - rewrite (flag_at _ _ 0); [|lra|exists 0%Z; lra]. destruct (Rltb_spec 0 0); [lra|reflexivity].
        - rewrite (flag_at l (3 * PI / 4) (l + 5 * PI / 4)); [|lra|exists 1%Z; lra].
          destruct (Rltb_spec (l + 5 * PI / 4) PI); [lra|]. apply andb_false_r. }
      cbv zeta. rewrite E. match goal with |- context [if ?b then _ else _] => destruct b end; cbn [length]; lia. }
  assert (A : (1 <= omnibus_m s [3 * PI / 4; 5 * PI / 4]%R)%nat) by (rewrite Ei; apply G, omnibus_line_range; auto).
  assert (U : (omnibus_m s [3 * PI / 4; 5 * PI / 4]%R <= 1)%nat).
  { specialize (B 0%nat ltac:(lia)). assert (E0 : omnibus_line s 0 = 0) by (unfold omnibus_line; simpl; unfold Rdiv; ring).
    rewrite E0 in B. unfold omnibus_right, count_if in B. cbn [filter length] in B.
    rewrite (flag_at 0 (3 * PI / 4) (5 * PI / 4)) in B; [|lra|exists 1%Z; lra].
    rewrite (flag_at 0 (5 * PI / 4) (3 * PI / 4)) in B; [|lra|exists 1%Z; lra].
    destruct (Rltb_spec 0 (5 * PI / 4)); [|lra]. destruct (Rltb_spec (5 * PI / 4) PI); [lra|].
    destruct (Rltb_spec 0 (3 * PI / 4)); [|lra]. destruct (Rltb_spec (3 * PI / 4) PI); [|lra]. simpl in B. lia. }
  lia.
Qed.
Lemma omnibus_at_0 s : (0 < s)%nat -> omnibus_m s [3 * PI / 4 + PI; 5 * PI / 4 + PI] = 0%nat.
Proof.
  intros Hs. pose proof PI_pos as Hp.
  destruct (omnibus_m_spec s [3 * PI / 4 + PI; 5 * PI / 4 + PI] Hs) as [_ B].
  specialize (B (s * 180)%nat ltac:(lia)).
  assert (E0 : omnibus_line s (s * 180) = PI / 2).
  { unfold omnibus_line. rewrite !mult_INR. replace (INR 360) with (2 * INR 180) by (simpl; ring).
    field. split; [apply not_0_INR; lia|]. apply not_0_INR. lia. }
  rewrite E0 in B. unfold omnibus_right, count_if in B. cbn [filter length] in B.
  rewrite (flag_at (PI / 2) (3 * PI / 4 + PI) (3 * PI / 4)) in B; [|lra|exists 1%Z; lra].
  rewrite (flag_at (PI / 2) (5 * PI / 4 + PI) (PI / 4)) in B; [|lra|exists 1%Z; lra].
  destruct (Rltb_spec 0 (3 * PI / 4)); [|lra]. destruct (Rltb_spec (3 * PI / 4) PI); [|lra].
  destruct (Rltb_spec 0 (PI / 4)); [|lra]. destruct (Rltb_spec (PI / 4) PI); [|lra]. simpl in B. lia.
Qed.
Lemma omnibus_rot_refuted s : (0 < s)%Z -> exists alpha t x y,
  omnibus_test alpha s = Ok x /\ omnibus_test (map (fun a => a + t) alpha) s = Ok y /\
  omni_m x = 1%nat /\ omni_m y = 0%nat /\ omni_pval x = 0 /\ omni_pval y = 1.
Proof.
  intros Hs. exists [3 * PI / 4; 5 * PI / 4], PI. unfold omnibus_test. destruct (Z.leb_spec s 0); [lia|].
  cbn [map length Nat.eqb]. rewrite omnibus_at_pi, omnibus_at_0 by lia.
  destruct (Rleb_spec (INR 2 - 2 * INR 1) 0) as [_|L]; [|simpl in L; lra].
  destruct (Rleb_spec (INR 2 - 2 * INR 0) 0) as [L|_]; [simpl in L; lra|].
  do 2 eexists. split; [reflexivity|]. split; [reflexivity|]. cbn [omni_m omni_pval].
  repeat split. rewrite exp_logp by lia. unfold hodges_ajne_p. simpl. field.
Qed.
Lemma omnibus_opposite_refuted s : (0 < s)%Z -> exists t,
  omnibus_test [0; PI] s = Ok t /\ omni_pval t = 0 /\ omni_A t = PInf.
Proof.
  intros Hs. pose proof PI_pos as Hp. destruct (omnibus_spec [0; PI] s Hs ltac:(discriminate)) as (t & E & (i & Hi & Hc) & _ & _ & Z).
  exists t. split; [exact E|]. apply Z. cbn [length].
  apply omnibus_right_unique in Hc. rewrite Hc.
  assert (Hn : (0 < Z.to_nat s)%nat) by lia. pose proof (omnibus_line_range _ _ Hn Hi) as Rg.
  unfold omnibus_line in Rg. set (l := PI * INR i / INR (Z.to_nat s * 360)) in *.
  unfold omnibus_right, count_if. cbn [filter length].
  assert (F : Rltb 0 (angmod0 (l - PI)) && Rltb (angmod0 (l - PI)) PI = false).
  { rewrite (flag_at l PI (l + PI)); [|lra|exists 1%Z; lra].
    destruct (Rltb_spec (l + PI) PI); [lra|]. apply andb_false_r. }
  cbv zeta. rewrite F. match goal with |- context [if ?b then _ else _] => destruct b end; cbn [length]; lia.
Qed.
