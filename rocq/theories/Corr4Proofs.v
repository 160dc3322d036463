(** Rank correlation. *)
From Verif Require Import Prelude CircleSpec NpModel NpProofs UtilsModel UtilsProofs DescModel DescSpec DescProofs DescApi DescApi2
  Desc2Model Desc6Proofs HypMultiModel HypMultiSpec HypMulti2Model HypMultiProofs HypMulti3Proofs HypMulti4Proofs HypMulti5Proofs
  CorrModel CorrSpec CorrProofs Corr2Proofs.

(** Squared length of the sum of unit vectors. *)
Definition RR (l : list R) : R := Rsum (map cos l) ^ 2 + Rsum (map sin l) ^ 2.
Lemma RR_img e t l l' : e = 1 \/ e = -1 -> Forall2 (img e t) l l' -> RR l' = RR l.
Proof.
  intros E H.
  assert (C : Rsum (map cos l') = cos t * Rsum (map cos l) - e * sin t * Rsum (map sin l)).
  { induction H as [|x x' l l' Hx H IH]; cbn [map]; rewrite ?Rsum_nil, ?Rsum_cons; [ring|]. rewrite IH.
    rewrite <- (same_dir_cos _ _ Hx). destruct E as [-> | ->].
    - replace (1 * x + t) with (x + t) by ring. rewrite cos_plus. ring.
    - replace (-1 * x + t) with (t - x) by ring. rewrite cos_minus. ring. }
  assert (S : Rsum (map sin l') = sin t * Rsum (map cos l) + e * cos t * Rsum (map sin l)).
  { clear C. induction H as [|x x' l l' Hx H IH]; cbn [map]; rewrite ?Rsum_nil, ?Rsum_cons; [ring|]. rewrite IH.
    rewrite <- (same_dir_sin _ _ Hx). destruct E as [-> | ->].
    - replace (1 * x + t) with (x + t) by ring. rewrite sin_plus. ring.
    - replace (-1 * x + t) with (t - x) by ring. rewrite sin_minus. ring. }
  unfold RR. rewrite C, S. set (a := Rsum (map cos l)). set (b := Rsum (map sin l)).
  pose proof (sin2_cos2 t) as U. unfold Rsqr in U.
  transitivity ((sin t * sin t + cos t * cos t) * (a ^ 2 + (e * e) * b ^ 2)); [ring|]. rewrite U, sq1 by auto. ring.
Qed.
Lemma RR_range l : 0 <= RR l <= INR (length l) ^ 2.
Proof.
  unfold RR. split; [apply Rplus_le_le_0_compat; apply pow2_ge_0|].
  pose proof (cauchy (fun x => cos x) (fun _ => 1) l) as H1. pose proof (cauchy (fun x => sin x) (fun _ => 1) l) as H2.
  rewrite (Rsum_map_ext (fun x => cos x * 1) cos) in H1 by (intros; ring).
  rewrite (Rsum_map_ext (fun x => sin x * 1) sin) in H2 by (intros; ring).
  rewrite (Rsum_map_ext (fun _ => 1 ^ 2) (fun _ => 1)), Rsum_map_const in H1, H2 by (intros; ring).
  assert (S : Rsum (map (fun x => cos x ^ 2) l) + Rsum (map (fun x => sin x ^ 2) l) = INR (length l)).
  { rewrite <- Rsum_map_plus, (Rsum_map_ext _ (fun _ => 1)), Rsum_map_const; [ring|].
    intros x _. pose proof (sin2_cos2 x) as U. unfold Rsqr in U. simpl. lra. }
  set (n := INR (length l)) in *. nra.
Qed.
Lemma RR_const l : Forall (fun x => same_dir x 0) l -> RR l = INR (length l) ^ 2.
Proof.
  intros H. unfold RR. rewrite (Rsum_map_ext cos (fun _ => 1)), (Rsum_map_ext sin (fun _ => 0)).
  - rewrite !Rsum_map_const. ring.
  - intros x Hx. rewrite Forall_forall in H. rewrite (same_dir_sin _ _ (H x Hx)), sin_0. auto.
  - intros x Hx. rewrite Forall_forall in H. rewrite (same_dir_cos _ _ (H x Hx)), cos_0. auto.
Qed.

(** Scaled ranks. *)
Definition cranks (a : list R) : list R := map (fun x => 2 * PI / INR (length a) * rank_avg a x) a.
Definition np_value (A B : list R) : R := (RR (map2 Rminus A B) - RR (map2 Rplus A B)) / INR (length A) ^ 2.
Lemma map2_map_scal (h : R -> R -> R) c u v : (forall x y, c * h x y = h (c * x) (c * y)) ->
  map (fun k => c * k) (map2 h u v) = map2 h (map (fun x => c * x) u) (map (fun x => c * x) v).
Proof.
  intros H. unfold map2. revert v. induction u as [|x u IH]; intros [|y v]; cbn; auto. rewrite IH, H. reflexivity.
Qed.
Lemma np_core x y test strict :
  circ_corrcc_np x y test strict =
  if Nat.eqb (length (angles x)) (length (angles y)) && Nat.leb 3 (length (angles x))
  then let r := np_value (cranks (angles x)) (cranks (angles y)) in
       let n := INR (length (angles x)) in
       Ok (plain_r r (Some (Rltb (299/100 + 216/100 / n) ((n - 1) * r))))
  else Err ValueError.
Proof.
  assert (core : forall a b : list R, (if negb (Nat.eqb (length a) (length b)) then Err ValueError
    else if Nat.ltb (length a) 3 then Err ValueError
    else
    let n := INR (length a) in
    let rank_a := map (rank_avg a) a in
    let rank_b := map (rank_avg b) b in
    let r := np_r n (map2 Rminus rank_a rank_b) - np_r n (map2 Rplus rank_a rank_b) in
    Ok {| cr_r := Fin r; cr_p_value := None;
          cr_reject := Some (Rltb (299/100 + 216/100 / n) ((n - 1) * r)); cr_test_stat := None |}) =
    if Nat.eqb (length a) (length b) && Nat.leb 3 (length a)
    then let r := np_value (cranks a) (cranks b) in
       let n := INR (length a) in
       Ok (plain_r r (Some (Rltb (299/100 + 216/100 / n) ((n - 1) * r)))) else Err ValueError).
  { intros a b. destruct (Nat.eqb_spec (length a) (length b)) as [E|E]; cbn [negb andb]; auto.
    destruct (Nat.ltb_spec (length a) 3); destruct (Nat.leb_spec 3 (length a)); try lia; auto.
    cbv zeta. unfold plain_r.
    assert (V : np_r (INR (length a)) (map2 Rminus (map (rank_avg a) a) (map (rank_avg b) b)) -
      np_r (INR (length a)) (map2 Rplus (map (rank_avg a) a) (map (rank_avg b) b)) = np_value (cranks a) (cranks b)).
    { assert (G : forall h, (forall c x y, c * h x y = h (c * x) (c * y)) ->
        np_r (INR (length a)) (map2 h (map (rank_avg a) a) (map (rank_avg b) b)) = RR (map2 h (cranks a) (cranks b)) / INR (length a) ^ 2).
      { intros h Hh. unfold cranks. rewrite <- E. rewrite <- !(map_map (rank_avg _) (fun k => 2 * PI / INR (length a) * k)).
        rewrite <- map2_map_scal by auto. unfold np_r, RR. rewrite !map_map. reflexivity. }
      rewrite !G by (intros; ring). unfold np_value, cranks. rewrite map_length. unfold Rdiv. ring. }
    rewrite V. reflexivity. }
  unfold circ_corrcc_np.
  destruct x as [[|a0 a]|a ?], y as [[|b0 b]|b ?]; cbn [coerce_angles bind angles fst];
    try (rewrite <- core; cbn [length]; reflexivity);
    try (destruct (Nat.eqb _ _) eqn:E; cbn [andb]; auto; apply Nat.eqb_eq in E; cbn in E; try discriminate;
         try (rewrite E); reflexivity); apply core.
Qed.
Lemma map2_length {A B C} (h : A -> B -> C) u v : length u = length v -> length (map2 h u v) = length u.
Proof. intros H. unfold map2. rewrite map_length, combine_length. lia. Qed.
Lemma np_value_range A B : length A = length B -> A <> [] -> -1 <= np_value A B <= 1.
Proof.
  intros L N. unfold np_value. pose proof (RR_range (map2 Rminus A B)) as H1. pose proof (RR_range (map2 Rplus A B)) as H2.
  rewrite map2_length in H1, H2 by auto.
  assert (P : 0 < INR (length A) ^ 2) by (apply pow_lt, lt_0_INR; destruct A; [congruence|cbn; lia]).
  set (n2 := INR (length A) ^ 2) in *.
  split; apply Rmult_le_reg_r with n2; auto; unfold Rdiv; rewrite Rmult_assoc, Rinv_l by lra; lra.
Qed.
Lemma Forall2_map2 (R1 R2 Q : R -> R -> Prop) (h k : R -> R -> R) A A' B B' :
  (forall x x' y y', R1 x x' -> R2 y y' -> Q (h x y) (k x' y')) ->
  Forall2 R1 A A' -> Forall2 R2 B B' -> Forall2 Q (map2 h A B) (map2 k A' B').
Proof.
  intros H F. revert B B'. unfold map2. induction F; intros B B' G; destruct G; cbn; constructor; auto.
Qed.
Lemma np_value_img e s f t A A' B B' : (e = 1 \/ e = -1) -> (f = 1 \/ f = -1) ->
  Forall2 (img e s) A A' -> Forall2 (img f t) B B' -> np_value A' B' = e * f * np_value A B.
Proof.
  intros E F H1 H2. unfold np_value. rewrite <- (F2_length _ _ _ H1).
  assert (K : (RR (map2 Rminus A' B') - RR (map2 Rplus A' B')) = e * f * (RR (map2 Rminus A B) - RR (map2 Rplus A B)));
    [|rewrite K; unfold Rdiv; ring].
  destruct (Req_dec e f) as [EF|EF].
  - subst f. rewrite sq1, Rmult_1_l by auto.
    assert (K1 : RR (map2 Rminus A' B') = RR (map2 Rminus A B)).
    { apply (RR_img e (s - t)); auto. apply (Forall2_map2 (img e s) (img e t)); auto. unfold img. intros x x' y y' Hx Hy.
      replace (e * (x - y) + (s - t)) with (e * x + s - (e * y + t)) by ring. apply same_dir_sub; auto. }
    assert (K2 : RR (map2 Rplus A' B') = RR (map2 Rplus A B)).
    { apply (RR_img e (s + t)); auto. apply (Forall2_map2 (img e s) (img e t)); auto. unfold img. intros x x' y y' Hx Hy.
      replace (e * (x + y) + (s + t)) with (e * x + s + (e * y + t)) by ring. apply same_dir_add; auto. }
    rewrite K1, K2. reflexivity.
  - assert (f = - e) by (destruct E as [-> | ->], F as [-> | ->]; lra). subst f.
    replace (e * - e) with (- (e * e)) by ring. rewrite sq1 by auto.
    assert (K1 : RR (map2 Rminus A' B') = RR (map2 Rplus A B)).
    { apply (RR_img e (s - t)); auto. apply (Forall2_map2 (img e s) (img (- e) t)); auto. unfold img. intros x x' y y' Hx Hy.
      replace (e * (x + y) + (s - t)) with (e * x + s - (- e * y + t)) by ring. apply same_dir_sub; auto. }
    assert (K2 : RR (map2 Rplus A' B') = RR (map2 Rminus A B)).
    { apply (RR_img e (s + t)); auto. apply (Forall2_map2 (img e s) (img (- e) t)); auto. unfold img. intros x x' y y' Hx Hy.
      replace (e * (x - y) + (s + t)) with (e * x + s + (- e * y + t)) by ring. apply same_dir_add; auto. }
    rewrite K1, K2. ring.
Qed.
Lemma img_refl x : img 1 0 x x.
Proof. unfold img. replace (1 * x + 0) with x by ring. apply same_dir_refl. Qed.
Lemma np_value_swap A B : length A = length B -> np_value B A = np_value A B.
Proof.
  intros L. unfold np_value. rewrite <- L.
  assert (K1 : RR (map2 Rminus B A) = RR (map2 Rminus A B)).
  { apply (RR_img (-1) 0); [auto|]. unfold map2. rewrite (combine_swap A B), map_map. cbn [fst snd].
    induction (combine A B) as [|p l IH]; cbn; constructor; auto. unfold img.
    replace (-1 * (fst p - snd p) + 0) with (snd p - fst p) by ring. apply same_dir_refl. }
  assert (K2 : RR (map2 Rplus B A) = RR (map2 Rplus A B)).
  { unfold map2. rewrite (combine_swap A B), map_map. cbn [fst snd]. f_equal. apply map_ext. intros; ring. }
  rewrite K1, K2. reflexivity.
Qed.

(** Ranks under turning and mirroring. *)
Lemma mw_turn t x y : 0 <= x < 2 * PI -> 0 <= y < 2 * PI ->
  mw_pair (turn_w t x) (turn_w t y) = mw_pair x y + (if Rlt_dec y (turn_c t) then 1 else 0) - (if Rlt_dec x (turn_c t) then 1 else 0).
Proof.
  intros Hx Hy. rewrite (turn_val t x Hx), (turn_val t y Hy). pose proof (angmod0_range t). unfold turn_c, mw_pair.
  destruct (Rlt_dec x (2 * PI - angmod0 t)), (Rlt_dec y (2 * PI - angmod0 t));
    repeat match goal with |- context [Rlt_dec ?u ?v] => destruct (Rlt_dec u v) end;
    repeat match goal with |- context [Req_EM_T ?u ?v] => destruct (Req_EM_T u v) end; lra.
Qed.
Lemma rank_turn t a y : on_turn a -> 0 <= y < 2 * PI ->
  rank_avg (map (turn_w t) a) (turn_w t y) =
  rank_avg a y + (if Rlt_dec y (turn_c t) then INR (length a) else 0) - Rsum (map (fun x => if Rlt_dec x (turn_c t) then 1 else 0) a).
Proof.
  intros H Hy. rewrite !rank_avg_mw, map_map. unfold on_turn in H. rewrite Forall_forall in H.
  rewrite (Rsum_map_ext _ (fun x => mw_pair x y + (if Rlt_dec y (turn_c t) then 1 else 0) - (if Rlt_dec x (turn_c t) then 1 else 0)))
    by (intros; apply mw_turn; auto).
  rewrite Rsum_map_minus, Rsum_map_plus, Rsum_map_const. destruct (Rlt_dec y (turn_c t)); ring.
Qed.
Definition flip_w (x : R) : R := angmod0 (- x).
Lemma flip_val x : 0 <= x < 2 * PI -> flip_w x = if Req_EM_T x 0 then 0 else 2 * PI - x.
Proof.
  intros H. unfold flip_w. destruct (Req_EM_T x 0) as [->|N].
  - replace (- 0) with 0 by ring. apply angmod0_unique; [lra|apply same_dir_refl].
  - apply angmod0_unique; [lra|]. exists 1%Z. ring.
Qed.
Lemma mw_flip x y : 0 <= x < 2 * PI -> 0 <= y < 2 * PI ->
  mw_pair (flip_w x) (flip_w y) = mw_pair y x + (if Req_EM_T x 0 then 1 else 0) - (if Req_EM_T y 0 then 1 else 0).
Proof.
  intros Hx Hy. rewrite (flip_val x Hx), (flip_val y Hy). unfold mw_pair.
  destruct (Req_EM_T x 0), (Req_EM_T y 0);
    repeat match goal with |- context [Rlt_dec ?u ?v] => destruct (Rlt_dec u v) end;
    repeat match goal with |- context [Req_EM_T ?u ?v] => destruct (Req_EM_T u v) end; lra.
Qed.
Lemma rank_flip a y : on_turn a -> 0 <= y < 2 * PI ->
  rank_avg (map flip_w a) (flip_w y) =
  INR (length a) + 1 - rank_avg a y + Rsum (map (fun x => if Req_EM_T x 0 then 1 else 0) a) - (if Req_EM_T y 0 then INR (length a) else 0).
Proof.
  intros H Hy. rewrite !rank_avg_mw, map_map. unfold on_turn in H. rewrite Forall_forall in H.
  rewrite (Rsum_map_ext _ (fun x => (1 - mw_pair x y) + (if Req_EM_T x 0 then 1 else 0) - (if Req_EM_T y 0 then 1 else 0))).
  - rewrite Rsum_map_minus, Rsum_map_plus, Rsum_map_minus, !Rsum_map_const. destruct (Req_EM_T y 0); lra.
  - intros x Hx. rewrite mw_flip by auto. pose proof (mw_compl x y). lra.
Qed.
Lemma cranks_turn t a : a <> [] -> on_turn a -> exists s, Forall2 (img 1 s) (cranks a) (cranks (map (turn_w t) a)).
Proof.
  intros N H. exists (- (2 * PI / INR (length a) * Rsum (map (fun x => if Rlt_dec x (turn_c t) then 1 else 0) a))).
  unfold cranks. rewrite map_length, map_map.
  assert (L : INR (length a) <> 0) by (apply not_0_INR; destruct a; [congruence|discriminate]).
  pose proof H as H'. unfold on_turn in H'. rewrite Forall_forall in H'.
  assert (G : forall b, (forall y, In y b -> In y a) -> Forall2 (img 1 (- (2 * PI / INR (length a) * Rsum (map (fun x => if Rlt_dec x (turn_c t) then 1 else 0) a))))
    (map (fun x => 2 * PI / INR (length a) * rank_avg a x) b)
    (map (fun x => 2 * PI / INR (length a) * rank_avg (map (turn_w t) a) (turn_w t x)) b)).
  { induction b as [|y b IH]; intros I; cbn [map]; constructor; [|apply IH; intros; apply I; now right].
    rewrite rank_turn by (auto; apply H', I; now left). unfold img.
    destruct (Rlt_dec y (turn_c t)); [exists (-1)%Z|exists 0%Z]; field; auto. }
  apply G. auto.
Qed.
Lemma cranks_flip a : a <> [] -> on_turn a -> exists s, Forall2 (img (-1) s) (cranks a) (cranks (map flip_w a)).
Proof.
  intros N H. exists (2 * PI / INR (length a) * (1 + Rsum (map (fun x => if Req_EM_T x 0 then 1 else 0) a))).
  unfold cranks. rewrite map_length, map_map.
  assert (L : INR (length a) <> 0) by (apply not_0_INR; destruct a; [congruence|discriminate]).
  pose proof H as H'. unfold on_turn in H'. rewrite Forall_forall in H'.
  assert (G : forall b, (forall y, In y b -> In y a) -> Forall2 (img (-1) (2 * PI / INR (length a) * (1 + Rsum (map (fun x => if Req_EM_T x 0 then 1 else 0) a))))
    (map (fun x => 2 * PI / INR (length a) * rank_avg a x) b)
    (map (fun x => 2 * PI / INR (length a) * rank_avg (map flip_w a) (flip_w x)) b)).
  { induction b as [|y b IH]; intros I; cbn [map]; constructor; [|apply IH; intros; apply I; now right].
    rewrite rank_flip by (auto; apply H', I; now left). unfold img.
    destruct (Req_EM_T y 0); [exists 0%Z|exists (-1)%Z]; field; auto. }
  apply G. auto.
Qed.
Lemma img_turn_w t a a' : on_turn a' -> Forall2 (img 1 t) a a' -> a' = map (turn_w t) a.
Proof.
  intros H F. induction F as [|x x' a a' Hx F IH]; [reflexivity|]. inversion H; subst. cbn [map]. f_equal; auto.
  symmetry. apply angmod0_unique; auto. unfold img in Hx. rewrite Rmult_1_l in Hx. apply same_dir_sym; auto.
Qed.
Lemma flip_on_turn a : on_turn (map flip_w a).
Proof. unfold on_turn. rewrite Forall_forall. intros x Hx. apply in_map_iff in Hx. destruct Hx as (y & <- & _). apply angmod0_range. Qed.
Lemma img_flip_w t a a' : Forall2 (img (-1) t) a a' -> Forall2 (img 1 t) (map flip_w a) a'.
Proof.
  intros F. induction F as [|x x' a a' Hx F IH]; cbn [map]; constructor; auto. unfold img in *.
  eapply same_dir_trans; [|exact Hx]. apply same_dir_add; [|apply same_dir_refl].
  replace (-1 * x) with (- x) by ring. rewrite Rmult_1_l. apply angmod0_same_dir.
Qed.
Lemma img_trans e s f t x y z : (f = 1 \/ f = -1) -> img e s x y -> img f t y z -> img (e * f) (f * s + t) x z.
Proof.
  unfold img. intros F H1 H2. eapply same_dir_trans; [|exact H2].
  replace (e * f * x + (f * s + t)) with (f * (e * x + s) + t) by ring. apply same_dir_add; [|apply same_dir_refl].
  destruct F as [-> | ->]; [rewrite !Rmult_1_l; auto|]. replace (-1 * y) with (- y) by ring. replace (-1 * (e * x + s)) with (- (e * x + s)) by ring.
  apply same_dir_opp, H1.
Qed.
Lemma F2_trans e s f t A B C : (f = 1 \/ f = -1) -> Forall2 (img e s) A B -> Forall2 (img f t) B C -> Forall2 (img (e * f) (f * s + t)) A C.
Proof.
  intros F H. revert C. induction H; intros C G; inversion G; subst; constructor; auto. eapply img_trans; eauto.
Qed.
Lemma cranks_img e t a a' : a <> [] -> e = 1 \/ e = -1 -> on_turn a -> on_turn a' -> Forall2 (img e t) a a' ->
  exists s, Forall2 (img e s) (cranks a) (cranks a').
Proof.
  intros N E Ha Ha' F. destruct E as [-> | ->].
  - rewrite (img_turn_w t a a' Ha' F). apply cranks_turn; auto.
  - destruct (cranks_flip a N Ha) as [s Hs]. pose proof (img_turn_w t _ a' Ha' (img_flip_w t a a' F)) as E'.
    assert (N' : map flip_w a <> []) by (destruct a; cbn; congruence).
    destruct (cranks_turn t (map flip_w a) N' (flip_on_turn a)) as [s' Hs']. rewrite <- E' in Hs'.
    exists (1 * s + s'). replace (-1) with (-1 * 1) by ring. eapply F2_trans; eauto.
Qed.
Lemma map_on_fst {A B C} (f : A -> C) (a : list A) (b : list B) : length a = length b -> map f a = map (fun p => f (fst p)) (combine a b).
Proof. revert b. induction a as [|x a IH]; intros [|y b] H; cbn in *; try lia; auto. f_equal. apply IH. lia. Qed.
Lemma map_on_snd {A B C} (f : B -> C) (a : list A) (b : list B) : length a = length b -> map f b = map (fun p => f (snd p)) (combine a b).
Proof. revert b. induction a as [|x a IH]; intros [|y b] H; cbn in *; try lia; auto. f_equal. apply IH. lia. Qed.
(** Ranks depend on the order only. *)
Lemma rank_same_order a a' : same_order a a' -> cranks a = cranks a'.
Proof.
  intros [L H]. unfold cranks. rewrite <- L.
  assert (E : forall q, In q (combine a a') -> rank_avg a (fst q) = rank_avg a' (snd q)).
  { intros q Hq. rewrite !rank_avg_mw. f_equal. set (P := combine a a') in *.
    rewrite (map_on_fst (fun b => mw_pair b (fst q)) a a' L), (map_on_snd (fun b => mw_pair b (snd q)) a a' L). fold P.
    apply Rsum_map_ext.
    intros p Hp. pose proof (H p q Hp Hq) as H1. pose proof (H q p Hq Hp) as H2. unfold mw_pair.
    destruct (Rlt_dec (fst p) (fst q)), (Rlt_dec (snd p) (snd q)); try tauto.
    destruct (Rlt_dec (fst q) (fst p)), (Rlt_dec (snd q) (snd p)); try tauto.
    - destruct (Req_EM_T (fst p) (fst q)), (Req_EM_T (snd p) (snd q)); try lra.
    - destruct (Req_EM_T (fst p) (fst q)), (Req_EM_T (snd p) (snd q)); try lra. }
  transitivity (map (fun q => 2 * PI / INR (length a) * rank_avg a (fst q)) (combine a a')).
  - apply (map_on_fst (fun x => 2 * PI / INR (length a) * rank_avg a x)), L.
  - transitivity (map (fun q => 2 * PI / INR (length a) * rank_avg a' (snd q)) (combine a a')).
    + apply map_ext_in. intros q Hq. rewrite E by auto. reflexivity.
    + symmetry. apply (map_on_snd (fun x => 2 * PI / INR (length a) * rank_avg a' x)), L.
Qed.
(** Identical rankings without ties. *)
Lemma roots_sum2 n : (3 <= n)%nat ->
  Rsum (map (fun r => cos (2 * PI / INR n * INR r + 2 * PI / INR n * INR r)) (seq 1 n)) = 0 /\
  Rsum (map (fun r => sin (2 * PI / INR n * INR r + 2 * PI / INR n * INR r)) (seq 1 n)) = 0.
Proof.
  intros Hn. set (dl := 4 * PI / INR n).
  assert (Ln : 3 <= INR n) by (change 3 with (IZR (Z.of_nat 3)); rewrite <- INR_IZR_INZ; now apply le_INR).
  rewrite (Rsum_map_ext _ (fun r => cos (dl * INR r))) by (intros; f_equal; unfold dl; field; lra).
  rewrite (Rsum_map_ext (fun r => sin _) (fun r => sin (dl * INR r))) by (intros; f_equal; unfold dl; field; lra).
  assert (D : dl * INR n = 4 * PI) by (unfold dl; field; lra).
  pose proof (seq_turn (fun r => cos (dl * INR r)) n) as HC. pose proof (seq_turn (fun r => sin (dl * INR r)) n) as HS.
  assert (TT : dl * INR (S n) = dl * INR 1 + 2 * INR 2 * PI) by (rewrite S_INR; change (INR 1) with 1; simpl; lra).
  cbv beta in HC, HS. rewrite TT, cos_period in HC. rewrite TT, sin_period in HS.
  specialize (HC eq_refl). specialize (HS eq_refl).
  rewrite (Rsum_map_ext _ (fun r => cos dl * cos (dl * INR r) + (- sin dl) * sin (dl * INR r))) in HC
    by (intros r _; rewrite S_INR, Rmult_plus_distr_l, Rmult_1_r, cos_plus; ring).
  rewrite (Rsum_map_ext _ (fun r => cos dl * sin (dl * INR r) + sin dl * cos (dl * INR r))) in HS
    by (intros r _; rewrite S_INR, Rmult_plus_distr_l, Rmult_1_r, sin_plus; ring).
  rewrite Rsum_map_plus, !Rsum_map_scal in HC, HS.
  set (C := Rsum (map (fun r => cos (dl * INR r)) (seq 1 n))) in *.
  set (S := Rsum (map (fun r => sin (dl * INR r)) (seq 1 n))) in *.
  assert (P : cos dl < 1).
  { assert (B : 0 < dl <= 4 * PI / 3).
    { pose proof PI_RGT_0. split; [apply Rdiv_lt_0_compat; lra|]. nra. }
    pose proof PI_RGT_0. destruct (Rle_dec dl PI).
    - rewrite <- cos_0. apply cos_decreasing_1; lra.
    - replace (cos dl) with (cos (2 * PI - dl)).
      + rewrite <- cos_0. apply cos_decreasing_1; lra.
      + replace (2 * PI - dl) with (- dl + 2 * INR 1 * PI) by (simpl; ring). rewrite cos_period. apply cos_neg. }
  pose proof (sin2_cos2 dl) as SC. unfold Rsqr in SC. set (c := cos dl) in *. set (s := sin dl) in *.
  assert (E1 : (C ^ 2 + S ^ 2) * (2 - 2 * c) = 0).
  { assert (X : (1 - c) * C + s * S = 0) by lra. assert (Y : (1 - c) * S - s * C = 0) by lra.
    replace ((C ^ 2 + S ^ 2) * (2 - 2 * c)) with (((1 - c) * C + s * S) ^ 2 + ((1 - c) * S - s * C) ^ 2
      + (C ^ 2 + S ^ 2) * (1 - (s * s + c * c))) by ring.
    rewrite X, Y, SC. ring. }
  apply Rmult_integral in E1. destruct E1 as [E1|E1]; [|lra]. nra.
Qed.
Lemma rank_avg_nodup l x : NoDup l -> In x l -> rank_avg l x = INR (at_most x l).
Proof.
  intros N H. unfold rank_avg.
  assert (K : count_if (fun y => Reqb y x) l = 1%nat).
  { unfold count_if. clear -N H. induction N as [|y l Hy N IH]; [easy|]. cbn [filter]. destruct (Reqb_spec y x) as [->|E].
    - cbn [length]. f_equal.
      assert (filter (fun z => Reqb z x) l = []) as ->; [|reflexivity].
      clear -Hy. induction l as [|z l IH]; [reflexivity|]. cbn. destruct (Reqb_spec z x) as [->|]; [exfalso; apply Hy; now left|].
      apply IH. intros K. apply Hy. now right.
    - apply IH. destruct H; [congruence|auto]. }
  rewrite K. replace ((INR 1 + 1) / 2) with (INR (count_if (fun y => Reqb y x) l)) by (rewrite K; simpl; field).
  clear K N H. unfold count_if. induction l as [|y l IH]; [cbn; ring|]. cbn [filter at_most].
  destruct (Rltb_spec y x), (Reqb_spec y x), (Rle_dec y x); try lra; cbn [length]; rewrite ?S_INR; lra.
Qed.
Lemma np_self a : NoDup a -> (3 <= length a)%nat -> np_value (cranks a) (cranks a) = 1.
Proof.
  intros N L. unfold np_value.
  assert (LA : length (cranks a) = length a) by (unfold cranks; apply map_length).
  assert (P : 0 < INR (length a)) by (apply lt_0_INR; lia).
  rewrite RR_const.
  - rewrite map2_length by auto. rewrite LA.
    assert (Z : RR (map2 Rplus (cranks a) (cranks a)) = 0).
    { unfold cranks. rewrite map2_map. destruct (roots_sum2 (length a) L) as [C S]. pose proof (ranks_perm a N) as PM.
      unfold RR. rewrite !map_map.
      rewrite (Rsum_map_ext _ (fun x => cos (2 * PI / INR (length a) * INR (at_most x a) + 2 * PI / INR (length a) * INR (at_most x a))))
        by (intros x Hx; rewrite rank_avg_nodup by auto; reflexivity).
      rewrite (Rsum_map_ext (fun x => sin _) (fun x => sin (2 * PI / INR (length a) * INR (at_most x a) + 2 * PI / INR (length a) * INR (at_most x a))))
        by (intros x Hx; rewrite rank_avg_nodup by auto; reflexivity).
      rewrite <- (Rsum_perm _ _ (Permutation_map (fun r => cos (2 * PI / INR (length a) * INR r + 2 * PI / INR (length a) * INR r)) PM)), map_map in C.
      rewrite <- (Rsum_perm _ _ (Permutation_map (fun r => sin (2 * PI / INR (length a) * INR r + 2 * PI / INR (length a) * INR r)) PM)), map_map in S.
      rewrite C, S. ring. }
    rewrite Z. field. lra.
  - unfold map2. rewrite Forall_forall. intros x Hx. apply in_map_iff in Hx. destruct Hx as ([u v] & <- & Hp).
    assert (u = v). { clear -Hp. induction (cranks a); cbn in Hp; [tauto|]. destruct Hp as [[= <- <-]|]; auto. }
    subst. cbn. replace (v - v) with 0 by ring. apply same_dir_refl.
Qed.
