(** Concrete instances and witnesses for the correlation measures. *)
From Verif Require Import Prelude CircleSpec NpModel NpProofs UtilsModel UtilsProofs DescModel DescSpec DescProofs DescApi DescApi2
  Desc6Proofs HypMultiModel HypMulti2Model HypMultiSpec HypMulti2Proofs HypMulti3Proofs HypMulti4Proofs CorrModel CorrSpec CorrProofs Corr2Proofs Corr3Proofs Corr4Proofs Corr5Proofs Corr6Proofs.

Lemma sin_mPI2 : sin (- (PI / 2)) = -1.
Proof. rewrite sin_neg, sin_PI2. ring. Qed.
(** Three pairs with Fisher-Lee correlation 1/2. *)
Lemma ex45 z ncdf strict : circ_corrcc z ncdf (Arr [0; PI / 2; PI]) (Arr [0; PI / 2; PI / 2]) "fl" false strict = Ok (OnlyR (Fin (1 / 2))).
Proof.
  rewrite cc_fl_value. cbn [angles length Nat.eqb Nat.leb andb combine]. cbv zeta.
  unfold pair_sum. cbn [map fst snd].
  replace (0 - 0) with 0 by ring. replace (0 - PI / 2) with (- (PI / 2)) by ring. replace (0 - PI) with (- PI) by ring.
  replace (PI / 2 - 0) with (PI / 2) by ring. replace (PI / 2 - PI / 2) with 0 by ring. replace (PI / 2 - PI) with (- (PI / 2)) by field.
  replace (PI - 0) with PI by ring. replace (PI - PI / 2) with (PI / 2) by field. replace (PI - PI) with 0 by ring.
  rewrite sin_0, sin_mPI2, sin_PI2, sin_neg, sin_PI. unfold Rsum; cbn [fold_right].
  match goal with |- (if Rle_dec (sqrt ?x) _ then _ else _) = _ => replace x with (4 * 4) by ring end.
  rewrite sqrt_square by lra. destruct (Rle_dec 4 (2 / 100000000)); [lra|]. do 3 f_equal. field.
Qed.
Lemma balance_0_PI2 : Rsum (map (fun x => sin (x - PI / 4)) [0; PI / 2]) = 0 /\ / 100000000 * INR 2 < Rsum (map (fun x => cos (x - PI / 4)) [0; PI / 2]).
Proof.
  cbn [map]. unfold Rsum; cbn [fold_right]. replace (PI / 2 - PI / 4) with (PI / 4) by field. replace (0 - PI / 4) with (- (PI / 4)) by ring.
  rewrite sin_neg, cos_neg. split; [ring|].
  assert (0 < cos (PI / 4)) by (apply cos_gt_0; pose proof PI_RGT_0; lra).
  assert (cos (PI / 4) * cos (PI / 4) = 1 / 2).
  { pose proof (sin2_cos2 (PI / 4)) as U. unfold Rsqr in U. rewrite sin_cos_PI4 in U. lra. }
  simpl INR. nra.
Qed.
Lemma PI4_sq : sin (PI / 4) * sin (PI / 4) = 1 / 2.
Proof. pose proof (sin2_cos2 (PI / 4)) as U. unfold Rsqr in U. rewrite <- sin_cos_PI4 in U. lra. Qed.
Lemma ex46 z ncdf strict : circ_corrcc z ncdf (Arr [0; PI / 2]) (Arr [PI / 2; 0]) "js" false strict = Ok (OnlyR (Fin (-1))).
Proof.
  destruct balance_0_PI2 as [B1 B2].
  assert (B3 : Rsum (map (fun x => sin (x - PI / 4)) [PI / 2; 0]) = 0) by (transitivity (Rsum (map (fun x => sin (x - PI / 4)) [0; PI / 2])); [apply Rsum_perm, Permutation_map, perm_swap|exact B1]).
  assert (B4 : / 100000000 * INR 2 < Rsum (map (fun x => cos (x - PI / 4)) [PI / 2; 0])).
  { eapply Rlt_le_trans; [exact B2|]. right. apply Rsum_perm, Permutation_map, perm_swap. }
  rewrite (cc_js_value z ncdf (Arr [0; PI / 2]) (Arr [PI / 2; 0]) strict (PI / 4) (PI / 4) B1 B2 B3 B4 eq_refl) by (cbn; lia).
  cbv zeta. unfold dot. cbn [angles combine map fst snd].
  replace (PI / 2 - PI / 4) with (PI / 4) by field. replace (0 - PI / 4) with (- (PI / 4)) by ring. rewrite sin_neg.
  unfold Rsum; cbn [fold_right]. pose proof PI4_sq as Q.
  match goal with |- (if Rle_dec (sqrt ?x) _ then _ else _) = _ => replace x with (1 * 1) by nra end.
  rewrite sqrt_square by lra. destruct (Rle_dec 1 (/ 100000000)); [lra|]. do 3 f_equal. nra.
Qed.
Lemma ex46_test z ncdf strict : exists c, circ_corrcc z ncdf (Arr [0; PI / 2]) (Arr [PI / 2; 0]) "js" true strict = Ok (Full c) /\ cr_r c <> NaN.
Proof.
  destruct balance_0_PI2 as [B1 B2]. 
  assert (B3 : Rsum (map (fun x => sin (x - PI / 4)) [PI / 2; 0]) = 0) by (transitivity (Rsum (map (fun x => sin (x - PI / 4)) [0; PI / 2])); [apply Rsum_perm, Permutation_map, perm_swap|exact B1]).
  assert (B4 : / 100000000 * INR 2 < Rsum (map (fun x => cos (x - PI / 4)) [PI / 2; 0])).
  { eapply Rlt_le_trans; [exact B2|]. right. apply Rsum_perm, Permutation_map, perm_swap. }
  destruct (mean_exists [0; PI / 2] (PI / 4) ltac:(discriminate) B1 B2) as (m1 & E1 & S1).
  destruct (mean_exists [PI / 2; 0] (PI / 4) ltac:(discriminate) B3 B4) as (m2 & E2 & S2).
  assert (D1 : forall u, dev m1 u = sin (u - PI / 4)) by (intros; symmetry; apply same_dir_sin, same_dir_sub; [apply same_dir_refl|auto]).
  assert (D2 : forall u, dev m2 u = sin (u - PI / 4)) by (intros; symmetry; apply same_dir_sin, same_dir_sub; [apply same_dir_refl|auto]).
  rewrite cc_js, js_core. cbn [angles length Nat.eqb Nat.leb andb combine]. unfold jsP. cbn [map fst snd]. rewrite E1, E2.
  unfold js_body, dsum. cbn [map fst snd length]. rewrite !D1, !D2.
  replace (PI / 2 - PI / 4) with (PI / 4) by field. replace (0 - PI / 4) with (- (PI / 4)) by ring. rewrite sin_neg.
  unfold Rsum; cbn [fold_right]. pose proof PI4_sq as Q.
  assert (X1 : (- sin (PI / 4)) ^ 2 = 1 / 2) by nra. assert (X2 : sin (PI / 4) ^ 2 = 1 / 2) by nra. rewrite !X1, !X2.
  assert (F : forall x, / 100000000 < x -> isclose x 0 = false).
  { intros x Hx. apply isclose0_false; lra. }
  rewrite F. 2:{ replace ((1 / 2 + (1 / 2 + 0)) * (1 / 2 + (1 / 2 + 0))) with (1 * 1) by field. rewrite sqrt_square; lra. }
  rewrite F by (simpl INR; lra). cbn. eexists. split; [reflexivity|]. cbn. discriminate.
Qed.
(** strict=True does not raise. *)
Lemma ex46_strict z ncdf p : circ_corrcc z ncdf (Circ [0; PI / 2] p) (Circ [PI / 2; 0] p) "js" false true = Ok (OnlyR (Fin (-1))).
Proof.
  rewrite <- (ex46 z ncdf false). rewrite !cc_js, !js_core. reflexivity.
Qed.
(** Ranks: 0 < 2 < 4. *)
Lemma ex_order : NoDup [0; 2; 4] /\ same_order [0; 2; 4] [1; 5; 6] /\ reverse_order [0; 2; 4] [6; 5; 1].
Proof.
  split; [repeat constructor; cbn; intros H; repeat destruct H as [H|H]; try lra; auto|].
  split; (split; [reflexivity|]); cbn; intros p q Hp Hq;
    repeat destruct Hp as [Hp|Hp]; repeat destruct Hq as [Hq|Hq]; try tauto; subst; cbn; lra.
Qed.
Lemma ex47 z ncdf test strict : (exists o, circ_corrcc z ncdf (Arr [0; 2; 4]) (Arr [1; 5; 6]) "nonparametric" test strict = Ok o /\ coef o = Fin 1) /\
  (exists o, circ_corrcc z ncdf (Arr [0; 2; 4]) (Arr [6; 5; 1]) "nonparametric" test strict = Ok o /\ coef o = Fin (-1)).
Proof.
  destruct ex_order as (N & S & V). split.
  - destruct (cc_np_ok z ncdf (Arr [0; 2; 4]) (Arr [1; 5; 6]) test strict) as (o & H); [reflexivity|cbn; lia|].
    exists o. split; auto. eapply cc_np_same; eauto.
  - destruct (cc_np_ok z ncdf (Arr [0; 2; 4]) (Arr [6; 5; 1]) test strict) as (o & H); [reflexivity|cbn; lia|].
    exists o. split; auto. eapply cc_np_reversed; eauto.
Qed.
(** Adding a whole turn to one angle changes the ranks. *)
Lemma np_turn_refuted z ncdf strict : exists a a' b,
  moved 0 (angles a) (angles a') /\ circ_corrcc z ncdf a' b "nonparametric" false strict <> circ_corrcc z ncdf a b "nonparametric" false strict.
Proof.
  exists (Arr [0; 2; 4]), (Arr [0; 2 + 2 * PI; 4]), (Arr [0; 2; 4]). split.
  - unfold moved. cbn [angles]. constructor; [exists 0%Z; lra|]. constructor; [exists (-1)%Z; lra|]. constructor; [exists 0%Z; lra|constructor].
  - pose proof PI2_3_2 as P3. pose proof PI_4 as P4.
    assert (N : NoDup [0; 2; 4]) by apply ex_order.
    assert (S : same_order [0; 2; 4] [0; 2; 4]) by (split; [reflexivity|]; cbn; intros p q Hp Hq; repeat destruct Hp as [Hp|Hp]; repeat destruct Hq as [Hq|Hq]; try tauto; subst; cbn; lra).
    destruct (cc_np_ok z ncdf (Arr [0; 2; 4]) (Arr [0; 2; 4]) false strict) as (o & H); [reflexivity|cbn; lia|].
    rewrite H. destruct (cc_np_ok z ncdf (Arr [0; 2 + 2 * PI; 4]) (Arr [0; 2; 4]) false strict) as (o' & H'); [reflexivity|cbn; lia|].
    rewrite H'. intros E. assert (o' = o) by congruence. subst o'.
    pose proof (cc_np_same _ _ _ _ _ _ _ H N S) as C1.
    (* [0; 2+2PI; 4] has the order of the rotation [2; 0; 4] read backwards *)
    assert (T1 : same_order [0; 2 + 2 * PI; 4] [0; 4; 2]) by (split; [reflexivity|]; cbn; intros p q Hp Hq; repeat destruct Hp as [Hp|Hp]; repeat destruct Hq as [Hq|Hq]; try tauto; subst; cbn; lra).
    assert (Sb : same_order [0; 2; 4] [0; 2; 4]) by exact S.
    assert (OT : on_turn [0; 2 * PI / 3; 4 * PI / 3]) by (repeat constructor; lra).
    pose proof (cc_np_monotone z ncdf (Arr [0; 2 + 2 * PI; 4]) (Arr [0; 2; 4]) (Arr [0; 4 * PI / 3; 2 * PI / 3]) (Arr [0; 2 * PI / 3; 4 * PI / 3]) false strict strict) as M1.
    rewrite H' in M1.
    assert (M : circ_corrcc z ncdf (Arr [0; 4 * PI / 3; 2 * PI / 3]) (Arr [0; 2 * PI / 3; 4 * PI / 3]) "nonparametric" false strict = Ok o).
    { apply M1; (split; [reflexivity|]; cbn; intros p q Hp Hq; repeat destruct Hp as [Hp|Hp]; repeat destruct Hq as [Hq|Hq]; try tauto; subst; cbn; lra). }
    destruct (cc_np_ok z ncdf (Arr [0; 4 * PI / 3; 2 * PI / 3]) (Arr [0; 4 * PI / 3; 2 * PI / 3]) false strict) as (o2 & H2); [reflexivity|cbn; lia|].
    assert (C2 : coef o2 = Fin 1).
    { eapply cc_np_same; [exact H2| |].
      - cbn [angles]. repeat constructor; cbn; intros Q; repeat destruct Q as [Q|Q]; try lra; auto.
      - split; [reflexivity|]. cbn; intros p q Hp Hq; repeat destruct Hp as [Hp|Hp]; repeat destruct Hq as [Hq|Hq]; try tauto; subst; cbn; lra. }
    assert (C3 : coef o = neg_fl (coef o2)).
    { eapply (cc_np_mirrored z ncdf (Arr [0; 4 * PI / 3; 2 * PI / 3]) (Arr [0; 4 * PI / 3; 2 * PI / 3]) (Arr [0; 4 * PI / 3; 2 * PI / 3]) (Arr [0; 2 * PI / 3; 4 * PI / 3]) 0 0 false strict strict);
        [| | | | | |exact H2|exact M]; cbn [angles]; try (repeat constructor; lra).
      - constructor; [exists 0%Z; lra|]. constructor; [exists 0%Z; lra|]. constructor; [exists 0%Z; lra|constructor].
      - constructor; [exists 0%Z; lra|]. constructor; [exists (-1)%Z; lra|]. constructor; [exists (-1)%Z; lra|constructor]. }
    rewrite C1, C2 in C3. cbn in C3. injection C3. lra.
Qed.

(** Circular-linear: the values 1, 0, -1, 0 of the cosine at four directions. *)
Definition four : list R := [0; PI / 2; PI; 3 * (PI / 2)].
Lemma four_spread : spread (1 / 100000000 * INR 4) four /\ 0 < sumsq_dev [1; 0; -1; 3].
Proof.
  split.
  - intros d. unfold four, sumsq_dev. cbn [map length].
    replace (cos (PI / 2 - d)) with (sin d) by (rewrite cos_minus, cos_PI2, sin_PI2; ring).
    replace (cos (PI - d)) with (- cos d) by (rewrite cos_minus, cos_PI, sin_PI; ring).
    replace (cos (3 * (PI / 2) - d)) with (- sin d) by (rewrite cos_minus, cos_3PI2, sin_3PI2; ring).
    replace (cos (0 - d)) with (cos d) by (rewrite cos_minus, cos_0, sin_0; ring).
    unfold Rsum; cbn [fold_right]. replace (cos d + (sin d + (- cos d + (- sin d + 0)))) with 0 by ring.
    pose proof (sin2_cos2 d) as U. unfold Rsqr in U. unfold Rdiv at 2 3 4 5. rewrite Rmult_0_l. simpl INR. nra.
  - unfold sumsq_dev, Rsum. cbn. lra.
Qed.
Lemma ex48 ccdf : exists r pv, circ_corrcl ccdf (Arr four) [1; 0; -1; 3] = Ok (Fin r, Fin pv).
Proof. destruct four_spread. apply corrcl_defined; [reflexivity|cbn; lia|auto|auto]. Qed.
(** Degenerate data: the outcome depends on the zero direction. *)
Lemma corrcl_orientation ccdf : exists a a' x t, moved t (angles a) (angles a') /\
  circ_corrcl ccdf a x = Ok (NaN, NaN) /\ circ_corrcl ccdf a' x = Err ValueError.
Proof.
  exists (Arr [0; PI; 0]), (Arr [PI / 4; PI + PI / 4; PI / 4]), [1; 2; 3], (PI / 4). split.
  - constructor; [exists 0%Z; lra|]. constructor; [exists 0%Z; lra|]. constructor; [exists 0%Z; lra|constructor].
  - rewrite !corrcl_core. cbn [angles length Nat.eqb Nat.leb andb combine]. cbv zeta. split.
    + assert (Z : SP fs fs [(0, 1); (PI, 2); (0, 3)] = 0).
      { unfold SP, Mn, mean, fs, Rsum. cbn. rewrite sin_0, sin_PI. field. }
      rewrite Z. destruct (Reqb_spec 0 0); [|lra]. rewrite orb_true_r. reflexivity.
    + set (P := [(PI / 4, 1); (PI + PI / 4, 2); (PI / 4, 3)]).
      assert (V : forall f g, (f = fc \/ f = fs) -> (g = fc \/ g = fs) -> SP f g P = 8 / 3 * (1 / 2)).
      { pose proof PI4_sq as Q. pose proof sin_cos_PI4 as E.
        intros f g [-> | ->] [-> | ->]; unfold SP, Mn, mean, fs, fc, P, Rsum; cbn [map fold_right length fst snd INR];
        rewrite ?(Rplus_comm PI), ?neg_cos, ?neg_sin; rewrite <- ?E; set (s := sin (PI / 4)) in *; clearbody s; nra. }
      rewrite !V by auto. destruct (Reqb_spec (8 / 3 * (1 / 2)) 0); [lra|]. cbn [orb].
      rewrite sqrt_square by lra. replace (1 - (8 / 3 * (1 / 2) / (8 / 3 * (1 / 2))) ^ 2) with 0 by field.
      rewrite (proj2 (isclose0_true 0 ltac:(lra))) by lra. reflexivity.
Qed.
Lemma ex45_test z ncdf strict : exists c, circ_corrcc z ncdf (Arr [0; PI / 2; 0; PI / 2]) (Arr [0; PI / 2; 0; PI / 2]) "fl" true strict = Ok (Full c).
Proof.
  rewrite cc_fl, fl_core. cbn [angles length Nat.eqb Nat.leb andb combine]. unfold flP.
  assert (S1 : sin (0 - PI / 2) = -1) by (replace (0 - PI / 2) with (- (PI / 2)) by ring; apply sin_mPI2).
  assert (S2 : sin (PI / 2 - 0) = 1) by (replace (PI / 2 - 0) with (PI / 2) by ring; apply sin_PI2).
  assert (S3 : sin (0 - 0) = 0) by (replace (0 - 0) with 0 by ring; apply sin_0).
  assert (S4 : sin (PI / 2 - PI / 2) = 0) by (replace (PI / 2 - PI / 2) with 0 by ring; apply sin_0).
  assert (G : forall P, T saa P = T sbb P -> 1 <= T saa P -> exists r, corrP P = Ok r).
  { intros P E L. eexists. apply corrP_char. split; [|reflexivity]. rewrite <- E, sqrt_square by lra. lra. }
  assert (W : forall P, P = [(0, 0); (PI / 2, PI / 2); (0, 0); (PI / 2, PI / 2)] \/ In P (loo [(0, 0); (PI / 2, PI / 2); (0, 0); (PI / 2, PI / 2)]) -> exists r, corrP P = Ok r).
  { intros P HP. unfold loo, np_delete in HP. cbn in HP.
    repeat destruct HP as [HP|HP]; try tauto; subst P; apply G; unfold T, saa, sbb, triu; cbn [map app fst snd]; rewrite ?S1, ?S2, ?S3, ?S4; unfold Rsum; cbn [fold_right]; lra. }
  destruct (W _ (or_introl eq_refl)) as (r & ->). cbn [bind].
  assert (M : forall L, (forall P, In P L -> exists r, corrP P = Ok r) -> exists rs, rmap corrP L = Ok rs).
  { induction L as [|P L IH]; intros H; [eexists; reflexivity|]. destruct (H P (or_introl eq_refl)) as (x & Ex).
    destruct IH as (xs & Exs); [intros; apply H; now right|]. exists (x :: xs). cbn [rmap]. rewrite Ex. cbn [bind]. rewrite Exs. reflexivity. }
  destruct (M (loo [(0, 0); (PI / 2, PI / 2); (0, 0); (PI / 2, PI / 2)])) as (rs & ->); [intros; apply W; auto|].
  cbn. eexists. reflexivity.
Qed.
