(** The correlation measures at the level of circ_corrcc. *)
From Verif Require Import Prelude CircleSpec NpModel NpProofs UtilsModel UtilsProofs DescModel DescSpec DescProofs DescApi DescApi2
  Desc6Proofs HypMultiModel HypMulti2Model HypMultiSpec HypMultiProofs HypMulti2Proofs HypMulti3Proofs HypMulti4Proofs CorrModel CorrSpec CorrProofs Corr2Proofs Corr3Proofs Corr4Proofs Corr5Proofs.

(** The coefficient in an output of circ_corrcc. *)
Definition coef (o : cc_out) : fl := match o with OnlyR r => r | Full c => cr_r c end.
Definition neg_fl (x : fl) : fl := match x with Fin r => Fin (- r) | PInf => NInf | NInf => PInf | NaN => NaN end.
(** Same outcome with the sign of the coefficient and of the statistic changed; p-value and
    decision are unchanged. *)
Definition negated (o o' : res cc_out) : Prop :=
  match o, o' with
  | Ok (OnlyR r), Ok (OnlyR r') => r' = neg_fl r
  | Ok (Full c), Ok (Full c') => cr_r c' = neg_fl (cr_r c) /\ cr_p_value c' = cr_p_value c /\
      cr_reject c' = cr_reject c /\ cr_test_stat c' = option_map neg_fl (cr_test_stat c)
  | Err k, Err k' => k = k'
  | _, _ => False
  end.
Definition pack (test : bool) (x : res corr_result) : res cc_out :=
  do c <- x; Ok (if test then Full c else OnlyR (cr_r c)).
Lemma cc_fl z ncdf a b test strict : circ_corrcc z ncdf a b "fl" test strict = pack test (circ_corrcc_fl z a b test strict).
Proof. reflexivity. Qed.
Lemma cc_js z ncdf a b test strict : circ_corrcc z ncdf a b "js" test strict = pack test (circ_corrcc_js ncdf a b test strict).
Proof. reflexivity. Qed.
Lemma cc_np z ncdf a b test strict : circ_corrcc z ncdf a b "nonparametric" test strict = pack test (circ_corrcc_np a b test strict).
Proof. reflexivity. Qed.
Lemma pack_ok test x o : pack test x = Ok o -> exists c, x = Ok c /\ coef o = cr_r c /\ o = if test then Full c else OnlyR (cr_r c).
Proof. unfold pack. destruct x as [c|]; cbn; [|discriminate]. injection 1 as <-. exists c. destruct test; auto. Qed.
Lemma scale_neg x : x <> PInf -> x <> NInf -> scale_fl (-1) x = neg_fl x.
Proof. destruct x; cbn; intros; try congruence. f_equal; ring. Qed.
Definition fin_corr (c : corr_result) : Prop := cr_r c <> PInf /\ cr_r c <> NInf /\ cr_test_stat c <> Some PInf /\ cr_test_stat c <> Some NInf.
Lemma pack_negated test x : (forall c, x = Ok c -> fin_corr c) -> negated (pack test x) (pack test (rmapr (scale_corr (-1)) x)).
Proof.
  intros F. destruct x as [c|]; cbn; auto. destruct (F c eq_refl) as (A & B & C & D).
  destruct test; cbn.
  - split; [apply scale_neg; auto|]. split; auto. split; auto.
    destruct (cr_test_stat c) as [v|]; cbn; auto. f_equal. apply scale_neg; congruence.
  - apply scale_neg; auto.
Qed.
Lemma fl_fin z a b test strict c : circ_corrcc_fl z a b test strict = Ok c -> fin_corr c.
Proof.
  rewrite fl_core. destruct (_ && _); [|discriminate]. unfold flP. destruct (corrP _); cbn; [|discriminate].
  destruct test; [destruct (rmap _ _); cbn; [|discriminate]|]; injection 1 as <-; unfold fin_corr; cbn; repeat split; discriminate.
Qed.
Lemma js_fin ncdf a b test strict c : circ_corrcc_js ncdf a b test strict = Ok c -> fin_corr c.
Proof.
  rewrite js_core. destruct (_ && _); [|discriminate]. unfold jsP, js_body.
  destruct (circ_mean _ _); [destruct (circ_mean _ _)| | |];
  try (destruct (isclose _ 0); [discriminate|]; destruct test; [destruct (isclose _ 0); [discriminate|]|]);
  injection 1 as <-; unfold fin_corr; cbn; try (repeat split; discriminate); destruct test; repeat split; discriminate.
Qed.

(** Fisher-Lee. *)
Lemma cc_fl_moved z ncdf a b a' b' s t test strict strict' : moved s (angles a) (angles a') -> moved t (angles b) (angles b') ->
  circ_corrcc z ncdf a' b' "fl" test strict' = circ_corrcc z ncdf a b "fl" test strict.
Proof.
  rewrite !moved_img. intros A B. rewrite !cc_fl, (fl_img 1 s 1 t z a a' b b' test strict strict') by auto.
  replace (1 * 1) with 1 by ring. rewrite rmapr_1. reflexivity.
Qed.
Lemma cc_fl_mirrored z ncdf a b a' b' s t test strict strict' : moved s (angles a) (angles a') -> mirrored t (angles b) (angles b') ->
  negated (circ_corrcc z ncdf a b "fl" test strict) (circ_corrcc z ncdf a' b' "fl" test strict').
Proof.
  rewrite moved_img, mirrored_img. intros A B. rewrite !cc_fl, (fl_img 1 s (-1) t z a a' b b' test strict strict') by auto.
  replace (1 * -1) with (-1) by ring. apply pack_negated. intros c. apply fl_fin.
Qed.
Lemma cc_fl_range z ncdf a b test strict o : circ_corrcc z ncdf a b "fl" test strict = Ok o -> exists r, coef o = Fin r /\ -1 <= r <= 1.
Proof.
  rewrite cc_fl. intros H. apply pack_ok in H. destruct H as (c & H & -> & _). apply fl_ok in H.
  destruct H as (_ & _ & r & -> & H). exists r. split; auto. eapply corrP_range; eauto.
Qed.
Lemma cc_fl_same z ncdf a b t test strict o : circ_corrcc z ncdf a b "fl" test strict = Ok o ->
  (moved t (angles a) (angles b) -> coef o = Fin 1) /\ (mirrored t (angles a) (angles b) -> coef o = Fin (-1)).
Proof.
  rewrite cc_fl. intros H. apply pack_ok in H. destruct H as (c & H & -> & _). apply fl_ok in H.
  destruct H as (_ & _ & r & -> & H). rewrite moved_img, mirrored_img.
  split; intros M; f_equal; eapply corrP_same; try exact H; auto; apply Forall_combine2, M.
Qed.
Lemma cc_fl_value z ncdf a b strict :
  circ_corrcc z ncdf a b "fl" false strict =
  if Nat.eqb (length (angles a)) (length (angles b)) && Nat.leb 2 (length (angles a)) then
    let P := combine (angles a) (angles b) in
    let saa := pair_sum (fun p q => sin (fst p - fst q) ^ 2) P in
    let sbb := pair_sum (fun p q => sin (snd p - snd q) ^ 2) P in
    let sab := pair_sum (fun p q => sin (fst p - fst q) * sin (snd p - snd q)) P in
    if Rle_dec (sqrt (saa * sbb)) (2 / 100000000) then Err ValueError
    else Ok (OnlyR (Fin (sab / sqrt (saa * sbb))))
  else Err ValueError.
Proof.
  rewrite cc_fl, fl_core. destruct (_ && _); auto. cbv zeta. set (P := combine _ _).
  assert (S : forall x, sin (x - x) = 0) by (intros; unfold Rminus; rewrite Rplus_opp_r; apply sin_0).
  assert (N : forall x y, sin (x - y) = - sin (y - x)) by (intros; rewrite <- sin_neg; f_equal; ring).
  rewrite !T_pair_sum; try (intros; cbv beta; rewrite !S; ring); try (intros; cbv beta; rewrite N; try rewrite (N (snd _)); ring).
  change (fun p q : R * R => sin (fst p - fst q) ^ 2) with saa.
  change (fun p q : R * R => sin (snd p - snd q) ^ 2) with sbb.
  change (fun p q : R * R => sin (fst p - fst q) * sin (snd p - snd q)) with sab.
  replace (2 * T saa P * (2 * T sbb P)) with (2 * 2 * (T saa P * T sbb P)) by ring.
  rewrite (sqrt_mult_alt (2 * 2)) by lra. rewrite sqrt_square by lra.
  unfold flP, corrP. cbv zeta. set (d := sqrt _).
  assert (D : 0 <= d) by apply sqrt_pos.
  destruct (isclose d 0) eqn:I.
  - apply isclose0_true in I; auto. destruct (Rle_dec _ _); [reflexivity|exfalso; lra].
  - apply isclose0_false in I; auto. destruct (Rle_dec _ _); [exfalso; lra|]. cbn. do 3 f_equal. field. lra.
Qed.
(** Leave-one-out at the level of the API. *)
Definition without {A} (i : nat) (l : list A) : list A := firstn i l ++ skipn (S i) l.

(** Jammalamadaka-SenGupta. *)
Lemma cc_js_moved z ncdf a b a' b' s t test strict strict' : moved s (angles a) (angles a') -> moved t (angles b) (angles b') ->
  circ_corrcc z ncdf a' b' "js" test strict' = circ_corrcc z ncdf a b "js" test strict.
Proof.
  rewrite !moved_img. intros A B. rewrite !cc_js, (js_img ncdf 1 s 1 t a a' b b' test strict strict') by auto.
  replace (1 * 1) with 1 by ring. rewrite rmapr_1. reflexivity.
Qed.
Lemma cc_js_mirrored z ncdf a b a' b' s t test strict strict' : moved s (angles a) (angles a') -> mirrored t (angles b) (angles b') ->
  negated (circ_corrcc z ncdf a b "js" test strict) (circ_corrcc z ncdf a' b' "js" test strict').
Proof.
  rewrite moved_img, mirrored_img. intros A B. rewrite !cc_js, (js_img ncdf 1 s (-1) t a a' b b' test strict strict') by auto.
  replace (1 * -1) with (-1) by ring. apply pack_negated. intros c. apply js_fin.
Qed.
Lemma undefined_mean a : a <> [] -> (circ_mean a None = NaN <-> resultant a <= / 100000000 * INR (length a)).
Proof.
  intros N. assert (Q : 0 < INR (length a)) by (apply lt_0_INR; destruct a; cbn; [congruence|lia]).
  rewrite <- (circ_r_resultant a N). destruct (circ_mean_cases a None) as [[H E]|[H E]]; rewrite E.
  - split; [intros _; nra|auto].
  - split; [discriminate|intros G; exfalso; nra].
Qed.
Lemma cc_js_range z ncdf a b test strict o : circ_corrcc z ncdf a b "js" test strict = Ok o ->
  (coef o = NaN /\ (resultant (angles a) <= / 100000000 * INR (length (angles a)) \/ resultant (angles b) <= / 100000000 * INR (length (angles b))))
  \/ (exists r, coef o = Fin r /\ -1 <= r <= 1 /\ / 100000000 * INR (length (angles a)) < resultant (angles a) /\ / 100000000 * INR (length (angles b)) < resultant (angles b)).
Proof.
  rewrite cc_js. intros H. apply pack_ok in H. destruct H as (c & H & -> & _).
  pose proof (js_range _ _ _ _ _ _ H) as R1. apply js_ok in H. destruct H as (L & L2 & H).
  assert (Na : angles a <> []) by (destruct (angles a); cbn in *; [lia|discriminate]).
  assert (Nb : angles b <> []) by (destruct (angles b); cbn in *; [lia|discriminate]).
  pose proof (undefined_mean _ Na) as Ua. pose proof (undefined_mean _ Nb) as Ub.
  destruct H as [[E [M|M]]|(ma & mb & Ma & Mb & J)].
  - left. split; auto. left. apply Ua; auto.
  - left. split; auto. right. apply Ub; auto.
  - right. destruct R1 as [E|(r & E & Rr)].
    + exfalso. apply js_body_ok in J. destruct J as [_ J]. congruence.
    + exists r. split; auto. split; auto.
      split; apply Rnot_le_lt; intros Z; [apply Ua in Z|apply Ub in Z]; congruence.
Qed.
Lemma cc_js_same z ncdf a b t test strict o r : circ_corrcc z ncdf a b "js" test strict = Ok o -> coef o = Fin r ->
  (moved t (angles a) (angles b) -> r = 1) /\ (mirrored t (angles a) (angles b) -> r = -1).
Proof.
  rewrite cc_js. intros H. apply pack_ok in H. destruct H as (c & H & -> & _). intros E.
  rewrite moved_img, mirrored_img. split; intros M; eapply js_same; eauto.
Qed.
Lemma mean_exists a m : a <> [] -> Rsum (map (fun x => sin (x - m)) a) = 0 -> / 100000000 * INR (length a) < Rsum (map (fun x => cos (x - m)) a) ->
  exists m', circ_mean a None = Fin m' /\ same_dir m m'.
Proof.
  intros N A1 A2. assert (Q : 0 < INR (length a)) by (apply lt_0_INR; destruct a; cbn; [congruence|lia]).
  assert (RS : resultant a = Rsum (map (fun x => cos (x - m)) a)).
  { unfold resultant. destruct (sums_at a m) as [E1 E2]. 
    assert (E : Rsum (map cos a) ^ 2 + Rsum (map sin a) ^ 2 = Rsum (map (fun x => sin (x - m)) a) ^ 2 + Rsum (map (fun x => cos (x - m)) a) ^ 2).
    { rewrite E1, E2. pose proof (sin2_cos2 m) as U. unfold Rsqr in U.
      transitivity ((sin m * sin m + cos m * cos m) * (Rsum (map cos a) ^ 2 + Rsum (map sin a) ^ 2)); [rewrite U; ring|ring]. }
    rewrite E, A1. replace (0 ^ 2 + Rsum (map (fun x => cos (x - m)) a) ^ 2) with (Rsum (map (fun x => cos (x - m)) a) * Rsum (map (fun x => cos (x - m)) a)) by ring.
    apply sqrt_square. nra. }
  destruct (mean_none_iff a) as [Z|(m' & E)].
  - apply undefined_mean in Z; auto. lra.
  - exists m'. split; auto. destruct (balances_none _ _ E N) as [A3 A4]. eapply balance_unique; eauto. nra.
Qed.
Lemma cc_js_value z ncdf a b strict ma mb :
  Rsum (map (fun x => sin (x - ma)) (angles a)) = 0 -> / 100000000 * INR (length (angles a)) < Rsum (map (fun x => cos (x - ma)) (angles a)) ->
  Rsum (map (fun x => sin (x - mb)) (angles b)) = 0 -> / 100000000 * INR (length (angles b)) < Rsum (map (fun x => cos (x - mb)) (angles b)) ->
  length (angles a) = length (angles b) -> (2 <= length (angles a))%nat ->
  let P := combine (angles a) (angles b) in
  let den := sqrt (dot (fun a => sin (a - ma) ^ 2) (fun _ => 1) P * dot (fun _ => 1) (fun b => sin (b - mb) ^ 2) P) in
  circ_corrcc z ncdf a b "js" false strict =
  if Rle_dec den (/ 100000000) then Err ValueError
  else Ok (OnlyR (Fin (dot (fun a => sin (a - ma)) (fun b => sin (b - mb)) P / den))).
Proof.
  intros A1 A2 B1 B2 L L2. cbv zeta.
  assert (Na : angles a <> []) by (destruct (angles a); cbn in *; [lia|discriminate]).
  assert (Nb : angles b <> []) by (destruct (angles b); cbn in *; [lia|discriminate]).
  destruct (mean_exists _ _ Na A1 A2) as (m1 & Ea & Sa). destruct (mean_exists _ _ Nb B1 B2) as (m2 & Eb & Sb).
  assert (Da : forall u, dev m1 u = sin (u - ma)) by (intros; symmetry; apply same_dir_sin, same_dir_sub; [apply same_dir_refl|auto]).
  assert (Db : forall u, dev m2 u = sin (u - mb)) by (intros; symmetry; apply same_dir_sin, same_dir_sub; [apply same_dir_refl|auto]).
  rewrite cc_js, js_core, L, Nat.eqb_refl. rewrite L in L2. destruct (Nat.leb_spec 2 (length (angles b))); [|lia]. cbn [andb].
  unfold jsP. rewrite map_fst_combine, map_snd_combine by auto. rewrite Ea, Eb. unfold js_body. cbv zeta.
  set (P := combine _ _) in *.
  assert (E1 : dsum (fun p => dev m1 (fst p) ^ 2) P = dot (fun a => sin (a - ma) ^ 2) (fun _ => 1) P)
    by (apply Rsum_map_ext; intros; rewrite Da; ring).
  assert (E2 : dsum (fun p => dev m2 (snd p) ^ 2) P = dot (fun _ => 1) (fun b => sin (b - mb) ^ 2) P)
    by (apply Rsum_map_ext; intros; rewrite Db; ring).
  assert (E3 : dsum (fun p => dev m1 (fst p) * dev m2 (snd p)) P = dot (fun a => sin (a - ma)) (fun b => sin (b - mb)) P)
    by (apply Rsum_map_ext; intros; rewrite Da, Db; ring).
  rewrite E1, E2, E3. set (d := sqrt _). assert (D : 0 <= d) by apply sqrt_pos.
  destruct (isclose d 0) eqn:I.
  - apply isclose0_true in I; auto. destruct (Rle_dec _ _); [reflexivity|exfalso; lra].
  - apply isclose0_false in I; auto. destruct (Rle_dec _ _); [exfalso; lra|]. reflexivity.
Qed.
Lemma cc_js_test z ncdf a b strict c ma mb :
  Rsum (map (fun x => sin (x - ma)) (angles a)) = 0 -> 0 < Rsum (map (fun x => cos (x - ma)) (angles a)) ->
  Rsum (map (fun x => sin (x - mb)) (angles b)) = 0 -> 0 < Rsum (map (fun x => cos (x - mb)) (angles b)) ->
  circ_corrcc z ncdf a b "js" true strict = Ok (Full c) -> cr_r c <> NaN ->
  let P := combine (angles a) (angles b) in
  exists s, cr_test_stat c = Some (Fin s) /\ cr_p_value c = Some (Fin (2 * (1 - ncdf (Rabs s)))) /\
    0 < dot (fun a => sin (a - ma) ^ 2) (fun b => sin (b - mb) ^ 2) P /\
    s * sqrt (dot (fun a => sin (a - ma) ^ 2) (fun b => sin (b - mb) ^ 2) P) = dot (fun a => sin (a - ma)) (fun b => sin (b - mb)) P.
Proof.
  intros A1 A2 B1 B2 H N. rewrite cc_js in H. apply pack_ok in H. destruct H as (c' & H & _ & E).
  assert (c = c') by congruence. subst c'. destruct (js_range _ _ _ _ _ _ H) as [Z|(r & Er & _)]; [congruence|].
  eapply js_stat_value; eauto.
Qed.

(** The method name and the test flag. *)
Lemma cc_test_flag z ncdf a b m strict c : circ_corrcc z ncdf a b m true strict = Ok (Full c) ->
  circ_corrcc z ncdf a b m false strict = Ok (OnlyR (cr_r c)).
Proof.
  unfold circ_corrcc. cbv zeta. destruct (String.eqb _ _); [|destruct (String.eqb _ _); [|destruct (String.eqb _ _)]]; cbn [bind]; try discriminate.
  - rewrite !fl_core. destruct (_ && _); cbn [bind]; [|discriminate]. unfold flP. destruct (corrP _); cbn [bind]; [|discriminate].
    destruct (rmap _ _); cbn [bind]; [|discriminate]. intros H. injection H as <-. reflexivity.
  - rewrite !js_core. destruct (_ && _); cbn [bind]; [|discriminate]. unfold jsP, js_body.
    destruct (circ_mean _ _); [destruct (circ_mean _ _)| | |];
    try (destruct (isclose _ 0); cbn [bind]; [discriminate|]; destruct (isclose _ 0); cbn [bind]; [discriminate|]);
    cbn [bind]; intros H; injection H as <-; reflexivity.
  - rewrite !np_core. destruct (_ && _); cbn [bind]; [|discriminate]. intros H. injection H as <-. reflexivity.
Qed.
Lemma cc_method z ncdf a b m test strict :
  (~ In (lower m) ["fl"; "js"; "nonparametric"]%string -> circ_corrcc z ncdf a b m test strict = Err ValueError) /\
  (forall m', lower m' = lower m -> circ_corrcc z ncdf a b m' test strict = circ_corrcc z ncdf a b m test strict).
Proof.
  split.
  - intros N. unfold circ_corrcc. cbv zeta.
    destruct (String.eqb_spec (lower m) "fl"); [exfalso; apply N; cbn; auto|].
    destruct (String.eqb_spec (lower m) "js"); [exfalso; apply N; cbn; auto|].
    destruct (String.eqb_spec (lower m) "nonparametric"); [exfalso; apply N; cbn; auto|]. reflexivity.
  - intros m' E. unfold circ_corrcc. cbv zeta. rewrite E. reflexivity.
Qed.
Lemma cc_sizes z ncdf a b m test strict : length (angles a) <> length (angles b) \/ (length (angles a) < 2)%nat ->
  circ_corrcc z ncdf a b m test strict = Err ValueError.
Proof.
  intros H. unfold circ_corrcc. cbv zeta.
  assert (X : forall n : nat, (2 <= n)%nat -> Nat.eqb (length (angles a)) (length (angles b)) && Nat.leb n (length (angles a)) = false).
  { intros n Hn. destruct (Nat.eqb_spec (length (angles a)) (length (angles b))); cbn [andb]; auto.
    destruct (Nat.leb_spec n (length (angles a))); auto. destruct H; [congruence|lia]. }
  destruct (String.eqb _ _); [|destruct (String.eqb _ _); [|destruct (String.eqb _ _)]]; cbn [bind]; auto.
  - rewrite fl_core, X by lia. reflexivity.
  - rewrite js_core, X by lia. reflexivity.
  - rewrite np_core, X by lia. reflexivity.
Qed.

(** Rank correlation. *)
Lemma cc_np_value z ncdf a b test strict o : circ_corrcc z ncdf a b "nonparametric" test strict = Ok o ->
  length (angles a) = length (angles b) /\ (3 <= length (angles a))%nat /\ coef o = Fin (np_value (cranks (angles a)) (cranks (angles b))).
Proof.
  rewrite cc_np, np_core. destruct (Nat.eqb_spec (length (angles a)) (length (angles b))) as [L|L]; cbn [andb]; [|discriminate].
  destruct (Nat.leb_spec 3 (length (angles a))) as [L3|L3]; [|discriminate]. intros H. apply pack_ok in H.
  destruct H as (c & H & E & _). split; auto. split; auto. rewrite E. injection H as <-. reflexivity.
Qed.
Lemma cc_np_ok z ncdf a b test strict : length (angles a) = length (angles b) -> (3 <= length (angles a))%nat ->
  exists o, circ_corrcc z ncdf a b "nonparametric" test strict = Ok o.
Proof.
  intros L L3. rewrite cc_np, np_core, L, Nat.eqb_refl. rewrite L in L3. destruct (Nat.leb_spec 3 (length (angles b))); [|lia].
  cbn. destruct test; eauto.
Qed.
Lemma cc_np_range z ncdf a b test strict : length (angles a) = length (angles b) -> (3 <= length (angles a))%nat ->
  exists o r, circ_corrcc z ncdf a b "nonparametric" test strict = Ok o /\ coef o = Fin r /\ -1 <= r <= 1.
Proof.
  intros L L3. destruct (cc_np_ok z ncdf a b test strict L L3) as (o & H). exists o.
  destruct (cc_np_value _ _ _ _ _ _ _ H) as (_ & _ & E). eexists. split; [exact H|]. split; [exact E|].
  apply np_value_range; unfold cranks; [rewrite !map_length; auto|]. destruct (angles a); cbn in *; [lia|discriminate].
Qed.
Lemma cc_np_swap z ncdf a b test strict : circ_corrcc z ncdf b a "nonparametric" test strict = circ_corrcc z ncdf a b "nonparametric" test strict.
Proof.
  rewrite !cc_np, !np_core. rewrite (Nat.eqb_sym (length (angles b))). destruct (Nat.eqb_spec (length (angles a)) (length (angles b))) as [L|L]; cbn [andb]; auto.
  rewrite <- L. destruct (Nat.leb 3 _); auto. cbv zeta. rewrite np_value_swap; [reflexivity|unfold cranks; rewrite !map_length; auto].
Qed.
Lemma cc_np_monotone z ncdf a b a' b' test strict strict' : same_order (angles a) (angles a') -> same_order (angles b) (angles b') ->
  circ_corrcc z ncdf a' b' "nonparametric" test strict' = circ_corrcc z ncdf a b "nonparametric" test strict.
Proof.
  intros A B. rewrite !cc_np, !np_core. rewrite (rank_same_order _ _ A), (rank_same_order _ _ B).
  destruct A as [-> _]. destruct B as [-> _]. reflexivity.
Qed.
Lemma cc_np_same z ncdf a b test strict o : circ_corrcc z ncdf a b "nonparametric" test strict = Ok o -> NoDup (angles a) ->
  same_order (angles a) (angles b) -> coef o = Fin 1.
Proof.
  intros H N S. destruct (cc_np_value _ _ _ _ _ _ _ H) as (L & L3 & ->). rewrite <- (rank_same_order _ _ S). rewrite np_self; auto.
Qed.
Lemma cc_np_moved z ncdf a b a' b' s t test strict strict' :
  on_turn (angles a) -> on_turn (angles a') -> on_turn (angles b) -> on_turn (angles b') ->
  moved s (angles a) (angles a') -> moved t (angles b) (angles b') ->
  circ_corrcc z ncdf a' b' "nonparametric" test strict' = circ_corrcc z ncdf a b "nonparametric" test strict.
Proof.
  intros Oa Oa' Ob Ob'. rewrite !moved_img. intros A B. rewrite !cc_np, !np_core.
  pose proof (F2_length _ _ _ A) as La. pose proof (F2_length _ _ _ B) as Lb. rewrite <- La, <- Lb.
  destruct (Nat.eqb_spec (length (angles a)) (length (angles b))) as [L|L]; cbn [andb]; auto.
  destruct (Nat.leb_spec 3 (length (angles a))) as [L3|L3]; auto. cbv zeta.
  assert (Na : angles a <> []) by (destruct (angles a); cbn in *; [lia|discriminate]).
  assert (Nb : angles b <> []) by (destruct (angles b); cbn in *; [lia|discriminate]).
  destruct (cranks_img 1 s _ _ Na (or_introl eq_refl) Oa Oa' A) as (u & A').
  destruct (cranks_img 1 t _ _ Nb (or_introl eq_refl) Ob Ob' B) as (v & B').
  rewrite (np_value_img 1 u 1 v _ _ _ _ (or_introl eq_refl) (or_introl eq_refl) A' B'). rewrite !Rmult_1_l. reflexivity.
Qed.
Lemma cc_np_mirrored z ncdf a b a' b' s t test strict strict' o o' :
  on_turn (angles a) -> on_turn (angles a') -> on_turn (angles b) -> on_turn (angles b') ->
  moved s (angles a) (angles a') -> mirrored t (angles b) (angles b') ->
  circ_corrcc z ncdf a b "nonparametric" test strict = Ok o -> circ_corrcc z ncdf a' b' "nonparametric" test strict' = Ok o' ->
  coef o' = neg_fl (coef o).
Proof.
  intros Oa Oa' Ob Ob'. rewrite moved_img, mirrored_img. intros A B H H'.
  destruct (cc_np_value _ _ _ _ _ _ _ H) as (L & L3 & ->). destruct (cc_np_value _ _ _ _ _ _ _ H') as (_ & _ & ->).
  assert (Na : angles a <> []) by (destruct (angles a); cbn in *; [lia|discriminate]).
  assert (Nb : angles b <> []) by (destruct (angles b); cbn in *; [lia|discriminate]).
  destruct (cranks_img 1 s _ _ Na (or_introl eq_refl) Oa Oa' A) as (u & A').
  destruct (cranks_img (-1) t _ _ Nb (or_intror eq_refl) Ob Ob' B) as (v & B').
  rewrite (np_value_img 1 u (-1) v _ _ _ _ (or_introl eq_refl) (or_intror eq_refl) A' B'). cbn [neg_fl]. f_equal. ring.
Qed.
(** The jackknife decision. *)
Lemma rmap_F2 {A B} (f : A -> res B) l ys : rmap f l = Ok ys -> Forall2 (fun x y => f x = Ok y) l ys.
Proof.
  revert ys. induction l as [|x l IH]; intros ys; cbn [rmap]; [injection 1 as <-; constructor|].
  destruct (f x) eqn:E; cbn [bind]; [|discriminate]. destruct (rmap f l) eqn:E2; cbn [bind]; [|discriminate].
  injection 1 as <-. constructor; auto.
Qed.
Lemma combine_delete {A B} (a : list A) (b : list B) i : length a = length b ->
  np_delete (combine a b) i = combine (np_delete a i) (np_delete b i).
Proof.
  unfold np_delete. revert b i. induction a as [|x a IH]; intros [|y b] i L; cbn in L; try discriminate.
  - destruct i; reflexivity.
  - destruct i as [|i].
    + reflexivity.
    + cbn [combine firstn skipn app]. f_equal. specialize (IH b i ltac:(congruence)). exact IH.
Qed.
Lemma delete_length {A} (l : list A) i : (i < length l)%nat -> length (np_delete l i) = (length l - 1)%nat.
Proof. intros H. unfold np_delete. rewrite app_length, firstn_length, skipn_length. lia. Qed.
Lemma Forall2_in {A B} (Q : A -> B -> Prop) (Q' : A -> B -> Prop) l l' : Forall2 Q l l' -> (forall x y, In x l -> Q x y -> Q' x y) -> Forall2 Q' l l'.
Proof.
  intros H. induction H; intros F; constructor.
  - apply F; [now left|auto].
  - apply IHForall2. intros; apply F; [now right|auto].
Qed.
Lemma Forall2_mapl {A B C} (Q : B -> C -> Prop) (f : A -> B) l l' : Forall2 Q (map f l) l' -> Forall2 (fun x y => Q (f x) y) l l'.
Proof.
  revert l'. induction l as [|x l IH]; cbn [map]; intros l' H.
  - inversion H; constructor.
  - inversion H; subst. constructor; auto.
Qed.
Lemma var1_sumsq l : var1 l = sumsq_dev l / (INR (length l) - 1).
Proof.
  unfold var1, cov1, sumsq_dev. f_equal. change (Rsum l / INR (length l)) with (mean l). set (m := mean l). clearbody m.
  assert (E : forall u : list R, map2 (fun a b => (a - m) * (b - m)) u u = map (fun v => (v - m) ^ 2) u).
  { induction u as [|x u IH]; [reflexivity|]. change (map2 (fun a b => (a - m) * (b - m)) (x :: u) (x :: u)) with ((x - m) * (x - m) :: map2 (fun a b => (a - m) * (b - m)) u u). rewrite IH. cbn [map]. f_equal. ring. }
  rewrite E. reflexivity.
Qed.
Lemma corrP_short P : (length P < 2)%nat -> exists k, corrP P = Err k.
Proof.
  intros L. unfold corrP. assert (Z : T saa P = 0). { destruct P as [|p [|q P]]; cbn in L; try lia; reflexivity. }
  rewrite Z, Rmult_0_l, sqrt_0. rewrite (proj2 (isclose0_true 0 ltac:(lra))) by lra. eauto.
Qed.
Lemma cc_fl_jack z ncdf a b strict c : circ_corrcc z ncdf a b "fl" true strict = Ok (Full c) ->
  let n := length (angles a) in
  (3 <= n)%nat /\ exists r rs rej, cr_r c = Fin r /\ cr_reject c = Some rej /\ cr_p_value c = None /\
    Forall2 (fun i ri => circ_corrcc z ncdf (Arr (without i (angles a))) (Arr (without i (angles b))) "fl" false strict = Ok (OnlyR (Fin ri))) (seq 0 n) rs /\
    (0 <= z -> (rej = true <-> z * sqrt (sumsq_dev rs / (INR n - 1) / INR n) < Rabs (INR n * r - (INR n - 1) * (Rsum rs / INR n)))).
Proof.
  rewrite cc_fl, fl_core. destruct (Nat.eqb_spec (length (angles a)) (length (angles b))) as [L|L]; cbn [andb]; [|discriminate].
  destruct (Nat.leb_spec 2 (length (angles a))) as [L2|L2]; [|discriminate]. cbv zeta.
  unfold flP. destruct (corrP _) as [r|] eqn:Er; cbn [bind]; [|discriminate].
  destruct (rmap _ _) as [rs|] eqn:Es; cbn [bind]; [|discriminate]. intros H.
  apply (f_equal (fun o => match o with Ok (Full c) => c | _ => c end)) in H. cbn in H. subst c. cbn [cr_r cr_reject plain_r cr_p_value].
  apply rmap_F2 in Es. unfold loo in Es. apply Forall2_mapl in Es.
  assert (Ls : length rs = length (angles a)). { apply F2_length in Es. rewrite seq_length, combine_length in Es. lia. }
  assert (LP : length (combine (angles a) (angles b)) = length (angles a)) by (rewrite combine_length; lia).
  rewrite LP in *.
  assert (L3 : (3 <= length (angles a))%nat).
  { destruct (Nat.leb_spec 3 (length (angles a))); auto. exfalso.
    assert (In 0%nat (seq 0 (length (angles a)))) by (apply in_seq; lia).
    destruct rs as [|r0 rs]; [cbn in *; lia|]. destruct (length (angles a)) as [|k] eqn:EL; [lia|]. cbn [seq] in Es. inversion Es; subst.
    destruct (corrP_short (np_delete (combine (angles a) (angles b)) 0)) as (kk & Ek); [rewrite delete_length; rewrite ?LP; lia|congruence]. }
  split; auto. exists r, rs. eexists. split; [reflexivity|]. split; [reflexivity|]. split; [reflexivity|]. split.
  - apply (Forall2_in _ _ _ _ Es). intros i ri Hi E. apply in_seq in Hi. rewrite cc_fl, fl_core. cbn [angles].
    change (@without R) with (fun i l => @np_delete R l i). cbv beta.
    rewrite !delete_length by lia. rewrite L, Nat.eqb_refl. destruct (Nat.leb_spec 2 (length (angles b) - 1)); [|lia]. cbn [andb].
    unfold flP. rewrite <- combine_delete by auto. rewrite E. reflexivity.
  - intros Z. unfold jack. rewrite var1_sumsq, Ls. unfold mean. rewrite Ls.
    set (n := INR (length (angles a))). set (m := n * r - _). set (s := z * sqrt _).
    assert (S0 : 0 <= s) by (apply Rmult_le_pos; [auto|apply sqrt_pos]).
    unfold Rabs. destruct (Rleb_spec (m - s) 0), (Rleb_spec 0 (m + s)), (Rcase_abs m); cbn [negb andb]; split; intros; try discriminate; try reflexivity; lra.
Qed.
(** Opposite rankings. *)
Lemma rank_neg a x : rank_avg (map Ropp a) (- x) = INR (length a) + 1 - rank_avg a x.
Proof.
  rewrite !rank_avg_mw, map_map.
  rewrite (Rsum_map_ext (fun y => mw_pair (- y) (- x)) (fun y => 1 - mw_pair y x)).
  - rewrite Rsum_map_minus, Rsum_map_const. lra.
  - intros y _. unfold mw_pair. destruct (Rlt_dec (- y) (- x)), (Rlt_dec y x), (Req_EM_T (- y) (- x)), (Req_EM_T y x); lra.
Qed.
Lemma cranks_neg a : Forall2 (img (-1) (2 * PI / INR (length a) * (INR (length a) + 1))) (cranks a) (cranks (map Ropp a)).
Proof.
  unfold cranks. rewrite map_length, map_map.
  assert (G : forall l, Forall2 (img (-1) (2 * PI / INR (length a) * (INR (length a) + 1)))
    (map (fun x => 2 * PI / INR (length a) * rank_avg a x) l) (map (fun x => 2 * PI / INR (length a) * rank_avg (map Ropp a) (- x)) l)).
  { induction l as [|y l IH]; cbn [map]; constructor; auto. rewrite rank_neg. exists 0%Z. ring. }
  apply G.
Qed.
Lemma combine_opp (a b : list R) p : In p (combine (map Ropp a) b) -> exists q, In q (combine a b) /\ fst p = - fst q /\ snd p = snd q.
Proof.
  revert b. induction a as [|x a IH]; intros [|y b]; cbn; try tauto. intros [<-|H].
  - exists (x, y). cbn. auto.
  - destruct (IH b H) as (q & Hq & E). exists q. split; [now right|auto].
Qed.
Lemma reverse_neg a b : reverse_order a b -> same_order (map Ropp a) b.
Proof.
  intros [L H]. split; [rewrite map_length; auto|]. intros p q Hp Hq.
  destruct (combine_opp _ _ _ Hp) as (p' & Ip & -> & ->). destruct (combine_opp _ _ _ Hq) as (q' & Iq & -> & ->).
  rewrite <- (H q' p' Iq Ip). lra.
Qed.
Lemma cc_np_reversed z ncdf a b test strict o : circ_corrcc z ncdf a b "nonparametric" test strict = Ok o -> NoDup (angles a) ->
  reverse_order (angles a) (angles b) -> coef o = Fin (-1).
Proof.
  intros H N S. destruct (cc_np_value _ _ _ _ _ _ _ H) as (L & L3 & ->). apply reverse_neg in S.
  rewrite <- (rank_same_order _ _ S). f_equal.
  assert (I : Forall2 (img 1 0) (cranks (angles a)) (cranks (angles a))).
  { generalize (cranks (angles a)). induction l; constructor; auto. unfold img. rewrite Rmult_1_l, Rplus_0_r. apply same_dir_refl. }
  rewrite (np_value_img 1 0 (-1) _ _ _ _ _ (or_introl eq_refl) (or_intror eq_refl) I (cranks_neg (angles a))).
  rewrite np_self by auto. ring.
Qed.
