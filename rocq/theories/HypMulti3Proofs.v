From Verif Require Import Prelude NpModel NpProofs CircleSpec UtilsModel UtilsProofs DescModel DescProofs
  DescSpec DescApi DescApi2 Desc2Model Desc2Proofs Desc5Proofs ArcProofs HypProofs Hyp2Proofs HypGofSpec HypGofProofs
  HypMultiModel HypMultiSpec HypMultiProofs.

(** * Wallraff *)
Lemma mw_compl x y : mw_pair x y + mw_pair y x = 1.
Proof.
  unfold mw_pair. destruct (Rlt_dec x y); destruct (Rlt_dec y x); destruct (Req_EM_T x y); destruct (Req_EM_T y x); try lra.
Qed.
Lemma mw_range x y : 0 <= mw_pair x y <= 1.
Proof. unfold mw_pair. destruct (Rlt_dec x y); [lra|]. destruct (Req_EM_T x y); lra. Qed.
Lemma rank_avg_mw l a : rank_avg l a = Rsum (map (fun b => mw_pair b a) l) + 1/2.
Proof.
  unfold rank_avg, count_if. induction l as [|b l IH]; [simpl; lra|].
  cbn [map filter]. rewrite Rsum_cons.
  assert (E : mw_pair b a = (if Rltb b a then 1 else 0) + (if Reqb b a then 1 else 0) / 2).
  { unfold mw_pair, Rltb, Reqb. destruct (Rlt_dec b a); destruct (Req_EM_T b a); lra. }
  rewrite E. destruct (Rltb b a); destruct (Reqb b a); cbn [length]; rewrite ?S_INR; lra.
Qed.
Lemma mw_swap a b : Rsum (map (fun x => Rsum (map (fun y => mw_pair y x) b)) a) = mw_count b a.
Proof.
  unfold mw_count. induction b as [|y b IH]; cbn [map]; rewrite ?Rsum_nil, ?Rsum_cons.
  - rewrite Rsum_map_const. lra.
  - rewrite <- IH, <- Rsum_map_plus. apply Rsum_map_ext. intros x _. now rewrite Rsum_cons.
Qed.
Lemma mw_total a b : mw_count a b + mw_count b a = INR (length a) * INR (length b).
Proof.
  rewrite <- (mw_swap a b). unfold mw_count. rewrite <- Rsum_map_plus.
  rewrite (Rsum_map_ext _ (fun _ => INR (length b))).
  - rewrite Rsum_map_const. ring.
  - intros x _. rewrite <- Rsum_map_plus. rewrite (Rsum_map_ext _ (fun _ => 1)).
    + rewrite Rsum_map_const. ring.
    + intros y _. apply mw_compl.
Qed.
Lemma mw_nonneg a b : 0 <= mw_count a b.
Proof. apply Rsum_map_nonneg. intros x _. apply Rsum_map_nonneg. intros y _. apply mw_range. Qed.
Lemma wallraff_U1_mw x y : wallraff_U1 (length x) (length y) (x ++ y) = mw_count x y.
Proof.
  unfold wallraff_U1. rewrite map_app.
  rewrite firstn_app, firstn_all2, map_length, Nat.sub_diag, firstn_O, app_nil_r by (rewrite map_length; lia).
  rewrite (Rsum_map_ext _ (fun a => (Rsum (map (fun b => mw_pair b a) x) + Rsum (map (fun b => mw_pair b a) y)) + 1/2)).
  - rewrite !Rsum_map_plus, Rsum_map_const, !mw_swap.
    pose proof (mw_total x x). pose proof (mw_total x y). lra.
  - intros a _. rewrite rank_avg_mw, map_app, Rsum_app. reflexivity.
Qed.
Definition pick_angles (angle : angle_arg) (t0 t1 : R) : Prop :=
  (angle = Scalar t0 /\ t1 = t0) \/ angle = Array [t0; t1].
Lemma arc_dists t a d : Forall2 (fun x e => is_arc_dist x t e) a d -> d = map (fun x => angular_distance x t) a.
Proof.
  induction 1 as [|x e a d H F IH]; simpl; auto. rewrite <- IH. f_equal.
  apply arc_dist_unique with x t; auto. apply angular_distance_arc.
Qed.
Lemma wallraff_spec nsf a b angle t0 t1 d0 d1 : a <> [] -> b <> [] -> pick_angles angle t0 t1 ->
  Forall2 (fun x e => is_arc_dist x t0 e) a d0 -> Forall2 (fun x e => is_arc_dist x t1 e) b d1 ->
  exists t, wallraff_test nsf [(a, None); (b, None)] angle = Ok t /\
    wa_U t = Rmin (mw_count d0 d1) (mw_count d1 d0) /\
    mw_count d0 d1 + mw_count d1 d0 = INR (length a) * INR (length b) /\
    0 <= wa_U t <= INR (length a) * INR (length b) / 2 /\
    wa_pval t = 2 * nsf (Rabs (wallraff_z (length a) (length b) (wa_U t))).
Proof.
  intros Na Nb HA F0 F1. apply arc_dists in F0, F1.
  assert (T : Forall2 tabulates [(a, None); (b, None)] [a; b]) by (repeat constructor; apply tab_plain; auto).
  destruct (coerce_samples_tab _ _ (fun H => nil_cons (eq_sym H)) T) as (cs & E & A).
  unfold wallraff_test. rewrite E. cbn [bind].
  inversion A as [|? ? c0 ? ? ? S0 A1]; subst. inversion A1 as [|? ? c1 ? ? ? S1 A2]; subst. inversion A2; subst.
  assert (EA : match angle with Scalar a0 => Ok (a0, a0) | Array [a0; a1] => Ok (a0, a1) | _ => Err ValueError end
               = Ok (t0, t1)) by (destruct HA as [[-> ->]| ->]; reflexivity).
  rewrite EA. cbn [bind fst snd].
  rewrite (sees_alpha _ _ _ S0), (sees_alpha _ _ _ S1), (sees_n _ _ _ S0), (sees_n _ _ _ S1). cbn [fst].
  set (x := map (fun c => angular_distance c t0) a). set (y := map (fun c => angular_distance c t1) b).
  assert (Lx : length a = length x) by (unfold x; now rewrite map_length).
  assert (Ly : length b = length y) by (unfold y; now rewrite map_length).
  rewrite Lx, Ly, wallraff_U1_mw. pose proof (mw_total x y) as MT.
  replace (INR (length x) * INR (length y) - mw_count x y) with (mw_count y x) by lra.
  eexists. split; [reflexivity|]. cbn. split; [reflexivity|]. split; [exact MT|].
  pose proof (mw_nonneg x y). pose proof (mw_nonneg y x). split; [|now rewrite plus_INR].
  split; [apply Rmin_glb; auto|]. unfold Rmin. destruct (Rle_dec (mw_count x y) (mw_count y x)); lra.
Qed.
Lemma arc_exists t a : exists d, Forall2 (fun x e => is_arc_dist x t e) a d.
Proof.
  exists (map (fun x => angular_distance x t) a). induction a as [|x a IH]; constructor; auto. apply angular_distance_arc.
Qed.
Lemma wallraff_swap nsf a b t0 t1 : a <> [] -> b <> [] ->
  wallraff_test nsf [(b, None); (a, None)] (Array [t1; t0]) = wallraff_test nsf [(a, None); (b, None)] (Array [t0; t1]).
Proof.
  intros Na Nb. destruct (arc_exists t0 a) as (d0 & F0). destruct (arc_exists t1 b) as (d1 & F1).
  destruct (wallraff_spec nsf a b (Array [t0; t1]) t0 t1 d0 d1 Na Nb ltac:(now right) F0 F1) as ([U p] & E & U1 & _ & _ & P1).
  destruct (wallraff_spec nsf b a (Array [t1; t0]) t1 t0 d1 d0 Nb Na ltac:(now right) F1 F0) as ([U' p'] & E' & U2 & _ & _ & P2).
  rewrite E, E'. cbn in *. rewrite P1, P2, U1, U2.
  rewrite (Rmin_comm (mw_count d1 d0)). f_equal. f_equal. f_equal. f_equal. f_equal. unfold wallraff_z.
  f_equal; [|f_equal]; field.
Qed.
Lemma wallraff_turned nsf a a' b b' t t0 t1 : a <> [] -> b <> [] ->
  Forall2 (fun x y => same_dir y (x + t)) a a' -> Forall2 (fun x y => same_dir y (x + t)) b b' ->
  wallraff_test nsf [(a', None); (b', None)] (Array [t0 + t; t1 + t]) =
  wallraff_test nsf [(a, None); (b, None)] (Array [t0; t1]).
Proof.
  intros Na Nb Fa Fb.
  assert (X : forall s l l' d, Forall2 (fun x y => same_dir y (x + t)) l l' ->
    Forall2 (fun x e => is_arc_dist x s e) l d -> Forall2 (fun x e => is_arc_dist x (s + t) e) l' d).
  { intros s l l' d F. revert d. induction F as [|x y l l' H F IH]; intros d G; inversion G; subst; constructor; auto.
    assert (E : y0 = angular_distance x s) by (apply arc_dist_unique with x s; auto; apply angular_distance_arc).
    rewrite E, <- (angular_distance_rot x s t).
    rewrite <- (angular_distance_dir y (x + t) (s + t) (s + t)); auto.
    - apply angular_distance_arc.
    - apply same_dir_refl. }
  assert (NE : forall l l', l <> [] -> Forall2 (fun x y => same_dir y (x + t)) l l' -> l' <> [])
    by (intros l l' N F ->; inversion F; subst; congruence).
  destruct (arc_exists t0 a) as (d0 & F0). destruct (arc_exists t1 b) as (d1 & F1).
  destruct (wallraff_spec nsf a b (Array [t0; t1]) t0 t1 d0 d1 Na Nb ltac:(now right) F0 F1) as ([U p] & E & U1 & _ & _ & P1).
  destruct (wallraff_spec nsf a' b' (Array [t0 + t; t1 + t]) (t0 + t) (t1 + t) d0 d1 (NE _ _ Na Fa) (NE _ _ Nb Fb)
    ltac:(now right) (X _ _ _ _ Fa F0) (X _ _ _ _ Fb F1)) as ([U' p'] & E' & U2 & _ & _ & P2).
  rewrite E, E'. cbn in *. rewrite P1, P2, U1, U2.
  assert (L : forall l l', Forall2 (fun x y => same_dir y (x + t)) l l' -> length l' = length l)
    by (induction 1; simpl; congruence).
  rewrite (L _ _ Fa), (L _ _ Fb). reflexivity.
Qed.
(** Ten observations at 0, given as a frequency table, against one at 1 radian. *)
Lemma wallraff_grouped_refuted nsf : exists g obs b t t', tabulates g obs /\
  wallraff_test nsf [g; (b, None)] (Scalar 0) = Ok t /\
  wallraff_test nsf [(obs, None); (b, None)] (Scalar 0) = Ok t' /\ wa_U t < 0 /\ wa_U t' = 0.
Proof.
  exists ([0], Some [10]), (repeat 0 10), [1].
  assert (TB : tabulates ([0], Some [10]) (repeat 0 10)).
  { split; [discriminate|]. exists [10%nat]. repeat split; simpl; auto. f_equal. lra. }
  assert (D0 : angular_distance 0 0 = 0) by (apply angular_distance_0; apply same_dir_refl).
  assert (D1 : 0 < angular_distance 1 0).
  { destruct (angular_distance_range 1 0) as [[H|H] _]; auto. exfalso. symmetry in H. apply angular_distance_0 in H.
    destruct H as (k & Hk). pose proof PI2_1. pose proof PI_4.
    assert (B : 0 < IZR k < 1) by (split; nra). destruct B as [B1 B2]. apply lt_IZR in B1, B2. lia. }
  assert (T : Forall2 tabulates [([0], Some [10]); ([1], None)] [repeat 0 10; [1]])
    by (repeat constructor; auto; try (apply tab_plain; discriminate); apply TB).
  destruct (coerce_samples_tab _ _ (fun H => nil_cons (eq_sym H)) T) as (cs & E & A).
  inversion A as [|? ? c0 ? ? ? S0 A1]; subst. inversion A1 as [|? ? c1 ? ? ? S1 A2]; subst. inversion A2; subst.
  destruct (arc_exists 0 (repeat 0 10)) as (d0 & F0). destruct (arc_exists 0 [1]) as (d1 & F1).
  destruct (wallraff_spec nsf (repeat 0 10) [1] (Scalar 0) 0 0 d0 d1 ltac:(discriminate) ltac:(discriminate)
    ltac:(left; auto) F0 F1) as (t' & E' & U' & _).
  eexists _, t'. split; auto. split; [|split; [exact E'|]].
  - unfold wallraff_test. rewrite E. cbn [bind fst snd].
    rewrite (sees_alpha _ _ _ S0), (sees_alpha _ _ _ S1), (sees_n _ _ _ S0), (sees_n _ _ _ S1). reflexivity.
  - apply arc_dists in F0, F1. subst. cbn [wa_U]. split.
    + cbn [fst map app]. rewrite D0. unfold wallraff_U1. cbn [length repeat firstn map].
      rewrite !rank_avg_mw. cbn [map]. rewrite !Rsum_cons, Rsum_nil. set (x := angular_distance 1 0) in *.
      assert (M1 : mw_pair 0 x = 1) by (unfold mw_pair; destruct (Rlt_dec 0 x); lra).
      assert (M2 : mw_pair x 0 = 0) by (pose proof (mw_compl x 0); lra).
      assert (M3 : forall z, mw_pair z z = 1/2) by (intros z; pose proof (mw_compl z z); lra).
      rewrite M1, M2, !M3. simpl INR.
      eapply Rle_lt_trans; [apply Rmin_r|]. lra.
    + rewrite U'. unfold mw_count. simpl map. rewrite D0, !Rsum_cons, !Rsum_nil. set (x := angular_distance 1 0) in *.
      assert (M1 : mw_pair 0 x = 1) by (unfold mw_pair; destruct (Rlt_dec 0 x); lra).
      assert (M2 : mw_pair x 0 = 0) by (pose proof (mw_compl x 0); lra).
      rewrite M1, M2. rewrite Rmin_right; lra.
Qed.

(** * Rejected samples *)
Lemma Z_rint_nonneg x : 0 <= x -> (0 <= rint x)%Z.
Proof. intros H. rewrite <- (rint_IZR 0). apply rint_mono. exact H. Qed.
Lemma coerce_one_kind g : match coerce_one g with Ok _ => True | Err e => e = ValueError end.
Proof.
  unfold coerce_one. destruct (Nat.eqb _ _); auto. destruct (negb _); auto. destruct (existsb _ _); auto.
  destruct (negb _); auto. destruct (Nat.eqb _ _); auto.
Qed.
Lemma unusable_rejected g : unusable g -> coerce_one g = Err ValueError.
Proof.
  destruct g as [a w]. unfold unusable, coerce_one. cbn [fst snd]. rewrite weights_eff.
  set (v := eff_weights a w). intros H.
  destruct (Nat.eqb_spec (length a) 0) as [|La]; auto.
  destruct (Nat.eqb_spec (length v) (length a)) as [Lv|]; auto. cbn [negb].
  destruct (existsb (fun x => Rltb x 0) v) eqn:X; auto.
  assert (P : Forall (fun x => 0 <= x) v) by (apply existsb_neg, X).
  destruct (forallb (fun x => isclose x (IZR (rint x))) v) eqn:Y; auto. cbn [negb].
  rewrite Forall_forall in P. rewrite forallb_forall in Y.
  destruct H as [->|[H|[(x & Hx & Hn)|[(x & Hx & Hn)|H]]]]; [easy|contradiction| | |].
  - specialize (P x Hx). lra.
  - specialize (Y x Hx). unfold isclose, isclose_tol in Y. apply Rleb_true in Y. specialize (Hn (rint x)). lra.
  - assert (Z : nsum (map (fun x => Z.to_nat (rint x)) v) = 0%nat).
    { assert (AZ : forall x, In x v -> x = 0).
      { intros x Hx. apply (Rsum_map_0 (fun x => x) v P); auto. now rewrite map_id. }
      clear -AZ. induction v as [|x v IH]; simpl; auto. rewrite IH by (intros; apply AZ; now right).
      rewrite (AZ x) by now left. change 0 with (IZR 0) at 1. rewrite rint_IZR. reflexivity. }
    rewrite Z. reflexivity.
Qed.
Lemma coerce_all_rejects gs : Exists unusable gs -> coerce_all gs = Err ValueError.
Proof.
  induction 1 as [g gs H|g gs H IH]; cbn.
  - now rewrite unusable_rejected.
  - pose proof (coerce_one_kind g). destruct (coerce_one g); cbn; [|now subst]. now rewrite IH.
Qed.
Lemma coerce_rejects gs : gs = [] \/ Exists unusable gs -> coerce_samples gs = Err ValueError.
Proof.
  intros [->|H]; [reflexivity|]. destruct gs as [|g gs]; [inversion H|]. now apply coerce_all_rejects in H.
Qed.
Lemma tests_reject fsf csf nsf gs angle : gs = [] \/ Exists unusable gs ->
  watson_williams_test fsf gs = Err ValueError /\ watson_u2_test gs = Err ValueError /\
  wheeler_watson_test csf gs = Err ValueError /\ wallraff_test nsf gs angle = Err ValueError.
Proof.
  intros H. unfold watson_williams_test, watson_u2_test, wheeler_watson_test, wallraff_test.
  rewrite (coerce_rejects gs H). auto.
Qed.
(** A large fractional weight passes the integer check and is rounded. *)
Lemma rint_half_even : rint (200001 / 2) = 100000%Z.
Proof.
  unfold rint. assert (E : Rfloor (200001 / 2) = 100000%Z) by (apply Rfloor_unique; lra).
  rewrite E. replace (200001 / 2 - IZR 100000) with (1/2) by lra.
  destruct (Rltb_spec (1/2) (1/2)); [lra|]. destruct (Rltb_spec (1/2) (1/2)); [lra|]. reflexivity.
Qed.
Lemma fractional_weight fsf a b : watson_williams_test fsf [([a], Some [200001 / 2]); ([b], None)] =
  watson_williams_test fsf [([a], Some [100000]); ([b], None)].
Proof.
  unfold watson_williams_test. cbn [coerce_samples coerce_all].
  assert (E : coerce_one ([a], Some [200001 / 2]) = coerce_one ([a], Some [100000])).
  { unfold coerce_one. cbn [fst snd weights length Nat.eqb negb existsb forallb map].
    destruct (Rltb_spec (200001/2) 0); [lra|]. destruct (Rltb_spec 100000 0); [lra|].
    rewrite rint_half_even. rewrite (rint_IZR 100000).
    rewrite isclose_refl. unfold isclose, isclose_tol.
    replace (200001 / 2 - 100000) with (1/2) by lra. rewrite (Rabs_pos_eq (1/2)), (Rabs_pos_eq 100000) by lra.
    destruct (Rleb_spec (1/2) (/ 100000000 + / 100000 * 100000)); [reflexivity|lra]. }
  rewrite E. reflexivity.
Qed.
