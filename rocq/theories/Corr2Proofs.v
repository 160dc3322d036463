(** Fisher-Lee correlation: range, invariance. *)
From Verif Require Import Prelude CircleSpec NpModel NpProofs UtilsModel UtilsProofs DescModel DescSpec DescApi
  HypMultiModel HypMulti2Model HypMulti4Proofs CorrModel CorrSpec CorrProofs.

Lemma mean_scale e l : mean (map (fun x => e * x) l) = e * mean l.
Proof. unfold mean. rewrite map_length, (Rsum_map_scal e (fun x => x)), map_id. unfold Rdiv. ring. Qed.
Lemma cov1_map2 x : var1 x = Rsum (map (fun a => (a - mean x) ^ 2) x) / (INR (length x) - 1).
Proof.
  unfold var1, cov1. do 2 f_equal. set (m := mean x).
  pose proof (map2_map (fun a b => (a - m) * (b - m)) (fun a : R => a) (fun a : R => a) x) as H. rewrite map_id in H. rewrite H.
  apply map_ext. intros; ring.
Qed.
Lemma var1_scale e l : var1 (map (fun x => e * x) l) = e ^ 2 * var1 l.
Proof.
  rewrite !cov1_map2, mean_scale, map_length, map_map.
  rewrite (Rsum_map_ext _ (fun a => e ^ 2 * (a - mean l) ^ 2)) by (intros; ring).
  rewrite Rsum_map_scal. unfold Rdiv. ring.
Qed.
Lemma var1_perm l l' : Permutation l l' -> var1 l = var1 l'.
Proof.
  intros P. rewrite !cov1_map2. unfold mean. rewrite (Permutation_length P), (Rsum_perm _ _ P). f_equal.
  apply Rsum_perm, Permutation_map, P.
Qed.
Lemma mean_perm' l l' : Permutation l l' -> mean l = mean l'.
Proof. intros P. unfold mean. rewrite (Permutation_length P), (Rsum_perm _ _ P). reflexivity. Qed.

(** Images of a pair under turning or mirroring. *)
Definition img (e t x x' : R) : Prop := same_dir (e * x + t) x'.
Lemma img_sin e t x x' y y' : e = 1 \/ e = -1 -> img e t x x' -> img e t y y' -> sin (x' - y') = e * sin (x - y).
Proof.
  intros E H1 H2. rewrite <- (same_dir_sin _ _ (same_dir_sub _ _ _ _ H1 H2)).
  destruct E as [-> | ->].
  - replace (1 * x + t - (1 * y + t)) with (x - y) by ring. ring.
  - replace (-1 * x + t - (-1 * y + t)) with (- (x - y)) by ring. rewrite sin_neg. ring.
Qed.
Lemma moved_img t a a' : moved t a a' <-> Forall2 (img 1 t) a a'.
Proof.
  unfold moved, img. split; intros H; induction H; constructor; auto; rewrite Rmult_1_l in *; auto.
Qed.
Lemma mirrored_img t a a' : mirrored t a a' <-> Forall2 (img (-1) t) a a'.
Proof.
  unfold mirrored, img. split; intros H; induction H; constructor; auto.
  - replace (-1 * x + t) with (t - x) by ring. auto.
  - replace (t - x) with (-1 * x + t) by ring. auto.
Qed.
Definition img2 (e s f t : R) (p p' : R * R) : Prop := img e s (fst p) (fst p') /\ img f t (snd p) (snd p').
Lemma Forall2_combine {A B} (R1 : A -> A -> Prop) (R2 : B -> B -> Prop) a a' b b' :
  Forall2 R1 a a' -> Forall2 R2 b b' ->
  Forall2 (fun p p' => R1 (fst p) (fst p') /\ R2 (snd p) (snd p')) (combine a b) (combine a' b').
Proof. intros H. revert b b'. induction H; intros b b' H'; destruct H'; cbn; constructor; auto. Qed.
Lemma F2_length {A B} (Q : A -> B -> Prop) l l' : Forall2 Q l l' -> length l = length l'.
Proof. induction 1; cbn; congruence. Qed.

Definition scale_res (e : R) (x : res R) : res R := match x with Ok r => Ok (e * r) | Err k => Err k end.
Lemma sq1 e : e = 1 \/ e = -1 -> e * e = 1.
Proof. intros [-> | ->]; ring. Qed.
Lemma corrP_img e s f t P P' : (e = 1 \/ e = -1) -> (f = 1 \/ f = -1) -> Forall2 (img2 e s f t) P P' ->
  corrP P' = scale_res (e * f) (corrP P).
Proof.
  intros E F H. unfold corrP.
  rewrite (T_rel (img2 e s f t) saa saa P P' H). 2:{ intros x x' y y' [H1 _] [H2 _]. unfold saa.
    rewrite (img_sin e s _ _ _ _ E H1 H2), Rpow_mult_distr. replace (e ^ 2) with (e * e) by ring. rewrite sq1 by auto. ring. }
  rewrite (T_rel (img2 e s f t) sbb sbb P P' H). 2:{ intros x x' y y' [_ H1] [_ H2]. unfold sbb.
    rewrite (img_sin f t _ _ _ _ F H1 H2), Rpow_mult_distr. replace (f ^ 2) with (f * f) by ring. rewrite sq1 by auto. ring. }
  rewrite (T_rel (img2 e s f t) sab (fun p q => (e * f) * sab p q) P P' H). 2:{ intros x x' y y' [H1 K1] [H2 K2]. unfold sab.
    rewrite (img_sin e s _ _ _ _ E H1 H2), (img_sin f t _ _ _ _ F K1 K2). ring. }
  rewrite T_scal. cbv zeta. destruct (isclose _ 0); cbn [scale_res]; auto. f_equal. unfold Rdiv. ring.
Qed.
Lemma F2_loo {A B} (Q : A -> B -> Prop) P P' : Forall2 Q P P' -> Forall2 (Forall2 Q) (loo P) (loo P').
Proof.
  induction 1 as [|x x' P P' H F IH]; [constructor|]. rewrite !loo_cons. constructor; auto.
  clear F. induction IH; cbn; constructor; auto.
Qed.
Lemma rmap_scale (e : R) (f g : list (R * R) -> res R) L L' : Forall2 (fun l l' => g l' = scale_res e (f l)) L L' ->
  rmap g L' = match rmap f L with Ok l => Ok (map (fun x => e * x) l) | Err k => Err k end.
Proof.
  induction 1 as [|l l' L L' H F IH]; [reflexivity|]. cbn [rmap]. rewrite H. destruct (f l); cbn [scale_res bind]; auto.
  rewrite IH. destruct (rmap f L); reflexivity.
Qed.
Lemma jack_scale e z n r raas : e = 1 \/ e = -1 -> jack z n (e * r) (map (fun x => e * x) raas) = jack z n r raas.
Proof.
  intros E. unfold jack. rewrite mean_scale, var1_scale. replace (e ^ 2) with (e * e) by ring. rewrite (sq1 e E), Rmult_1_l.
  destruct E as [-> | ->].
  - rewrite !Rmult_1_l. reflexivity.
  - f_equal. set (u := n * r - (n - 1) * mean raas). set (v := z * sqrt (var1 raas / n)).
    replace (n * (-1 * r) - (n - 1) * (-1 * mean raas)) with (- u) by (unfold u; ring).
    destruct (Rleb_spec (- u - v) 0), (Rleb_spec 0 (- u + v)), (Rleb_spec (u - v) 0), (Rleb_spec 0 (u + v)); cbn; auto; lra.
Qed.
Definition scale_fl (e : R) (x : fl) : fl := match x with Fin r => Fin (e * r) | y => y end.
Definition scale_corr (e : R) (c : corr_result) : corr_result :=
  {| cr_r := scale_fl e (cr_r c); cr_p_value := cr_p_value c; cr_reject := cr_reject c;
     cr_test_stat := option_map (scale_fl e) (cr_test_stat c) |}.
Definition rmapr {A B} (f : A -> B) (x : res A) : res B := match x with Ok a => Ok (f a) | Err k => Err k end.
Lemma flP_img e s f t z P P' test : (e = 1 \/ e = -1) -> (f = 1 \/ f = -1) -> Forall2 (img2 e s f t) P P' ->
  flP z P' test = rmapr (scale_corr (e * f)) (flP z P test).
Proof.
  intros E F H. unfold flP. rewrite (corrP_img e s f t P P' E F H).
  destruct (corrP P) as [r|k]; cbn [scale_res bind rmapr]; auto.
  destruct test; [|reflexivity].
  rewrite (rmap_scale (e * f) corrP corrP (loo P) (loo P')).
  - destruct (rmap corrP (loo P)) as [raas|k]; cbn [bind rmapr]; auto.
    unfold scale_corr, plain_r. cbn. rewrite <- (F2_length _ _ _ H), jack_scale; auto.
    destruct E as [-> | ->], F as [-> | ->]; [left|right|right|left]; ring.
  - pose proof (F2_loo _ _ _ H) as L. induction L; constructor; auto. apply (corrP_img e s f t); auto.
Qed.
Lemma fl_img e s f t z x x' y y' test strict strict' : (e = 1 \/ e = -1) -> (f = 1 \/ f = -1) ->
  Forall2 (img e s) (angles x) (angles x') -> Forall2 (img f t) (angles y) (angles y') ->
  circ_corrcc_fl z x' y' test strict' = rmapr (scale_corr (e * f)) (circ_corrcc_fl z x y test strict).
Proof.
  intros E F H1 H2. rewrite !fl_core, <- (F2_length _ _ _ H1), <- (F2_length _ _ _ H2).
  destruct (_ && _); [|reflexivity]. apply (flP_img e s f t); auto. apply Forall2_combine; auto.
Qed.
Lemma scale_corr_1 c : scale_corr 1 c = c.
Proof.
  destruct c as [r p j t]. unfold scale_corr. cbn.
  assert (S : forall x, scale_fl 1 x = x) by (intros [a| | |]; cbn; auto; rewrite Rmult_1_l; auto).
  rewrite S. destruct t as [t|]; cbn; rewrite ?S; reflexivity.
Qed.
Lemma rmapr_1 x : rmapr (scale_corr 1) x = x.
Proof. destruct x; cbn; auto. rewrite scale_corr_1. reflexivity. Qed.

(** Order of the arguments. *)
Lemma corrP_swap P : corrP (map (fun p => (snd p, fst p)) P) = corrP P.
Proof.
  unfold corrP. rewrite !T_map. unfold sab, saa, sbb; cbn [fst snd].
  rewrite (T_ext (fun x y => sin (snd x - snd y) * sin (fst x - fst y)) sab) by (intros; unfold sab; ring).
  rewrite (Rmult_comm (T _ P)). reflexivity.
Qed.
Lemma combine_swap {A B} (a : list A) (b : list B) : combine b a = map (fun p => (snd p, fst p)) (combine a b).
Proof. revert b; induction a as [|x a IH]; intros [|y b]; cbn; auto. f_equal. apply IH. Qed.
Lemma fl_swap z x y test strict strict' : circ_corrcc_fl z y x test strict' = circ_corrcc_fl z x y test strict.
Proof.
  rewrite !fl_core. rewrite (Nat.eqb_sym (length (angles y))).
  destruct (Nat.eqb_spec (length (angles x)) (length (angles y))) as [E|E]; cbn [andb]; auto. rewrite <- E.
  destruct (Nat.leb _ _); auto. unfold flP. rewrite combine_swap, corrP_swap, loo_map, rmap_map, map_length.
  rewrite (rmap_ext _ corrP) by (intros; apply corrP_swap). reflexivity.
Qed.

(** Order of the pairs. *)
Lemma sab_sym p q : sab p q = sab q p.
Proof.
  unfold sab. replace (fst p - fst q) with (- (fst q - fst p)) by ring. replace (snd p - snd q) with (- (snd q - snd p)) by ring.
  rewrite !sin_neg. ring.
Qed.
Lemma saa_sym p q : saa p q = saa q p.
Proof. unfold saa. replace (fst p - fst q) with (- (fst q - fst p)) by ring. rewrite sin_neg. ring. Qed.
Lemma sbb_sym p q : sbb p q = sbb q p.
Proof. unfold sbb. replace (snd p - snd q) with (- (snd q - snd p)) by ring. rewrite sin_neg. ring. Qed.
Lemma sab_0 p : sab p p = 0.
Proof. unfold sab. rewrite !Rminus_eq_0, sin_0. ring. Qed.
Lemma saa_0 p : saa p p = 0.
Proof. unfold saa. rewrite !Rminus_eq_0, sin_0. ring. Qed.
Lemma sbb_0 p : sbb p p = 0.
Proof. unfold sbb. rewrite !Rminus_eq_0, sin_0. ring. Qed.
Lemma corrP_perm P P' : Permutation P P' -> corrP P' = corrP P.
Proof.
  intros H. apply Permutation_sym in H. unfold corrP.
  rewrite (T_perm saa _ _ saa_sym saa_0 H), (T_perm sbb _ _ sbb_sym sbb_0 H), (T_perm sab _ _ sab_sym sab_0 H). reflexivity.
Qed.
(** Leave-one-out samples of a permuted sample. *)
Lemma loo_perm {A} (P P' : list A) : Permutation P P' ->
  exists L, Permutation (loo P) L /\ Forall2 (@Permutation A) L (loo P').
Proof.
  assert (F2p : forall L L' M : list (list A), Forall2 (@Permutation A) L M -> Permutation M L' -> exists K, Permutation L K /\ Forall2 (@Permutation A) K L').
  { intros L L' M F H. revert L F. induction H; intros L F.
    - inversion F; subst. exists []. split; constructor.
    - inversion F as [|y ? K ? Hy HK]; subst. destruct (IHPermutation _ HK) as (K' & P1 & P2).
      exists (y :: K'). split; auto.
    - inversion F as [|a ? K ? Ha HK]; subst. inversion HK as [|b ? K2 ? Hb HK2]; subst.
      exists (b :: a :: K2). split; [constructor|]. constructor; auto.
    - destruct (IHPermutation1 _ F) as (K & P1 & P2). destruct (IHPermutation2 _ P2) as (K' & P3 & P4).
      exists K'. split; auto. eapply perm_trans; eauto. }
  assert (F2refl : forall L : list (list A), Forall2 (@Permutation A) L L) by (induction L; constructor; auto).
  assert (F2cons : forall x (L M : list (list A)), Forall2 (@Permutation A) L M -> Forall2 (@Permutation A) (map (cons x) L) (map (cons x) M))
    by (induction 1; cbn; constructor; auto).
  induction 1.
  - exists []. split; constructor.
  - destruct IHPermutation as (L & P1 & P2). exists (l :: map (cons x) L). rewrite !loo_cons. split.
    + constructor. apply Permutation_map, P1.
    + constructor; auto.
  - rewrite !loo_cons. cbn [map]. rewrite !map_map. exists ((y :: l) :: (x :: l) :: map (fun l0 => y :: x :: l0) (loo l)).
    split; [constructor|]. constructor; auto. constructor; auto. clear. induction (loo l); cbn; constructor; auto. constructor.
  - destruct IHPermutation1 as (L & P1 & P2). destruct IHPermutation2 as (M & P3 & P4).
    destruct (F2p _ _ _ P2 P3) as (K & P5 & P6). exists K. split; [eapply perm_trans; eauto|].
    assert (TR : forall X Y Z : list (list A), Forall2 (@Permutation A) X Y -> Forall2 (@Permutation A) Y Z -> Forall2 (@Permutation A) X Z).
    { intros X Y Z Ha. revert Z. induction Ha; intros Z Hb; inversion Hb; subst; constructor; auto. eapply perm_trans; eauto. }
    eapply TR; eauto.
Qed.
Lemma rmap_perm {A B} (f : A -> res B) e L L' : (forall x k, f x = Err k -> k = e) -> Permutation L L' ->
  match rmap f L, rmap f L' with
  | Ok l, Ok l' => Permutation l l'
  | Err a, Err b => a = e /\ b = e
  | _, _ => False
  end.
Proof.
  intros H. assert (H' : forall L k, rmap f L = Err k -> k = e).
  { induction L0 as [|x l IH]; intros k; cbn; [discriminate|]. destruct (f x) eqn:E; cbn; [|intros [= <-]; eapply H; eauto].
    destruct (rmap f l); cbn; [discriminate|intros [= <-]; apply IH; auto]. }
  induction 1 as [|x l l' P IH|x y l|l l' l'' P1 IH1 P2 IH2].
  - constructor.
  - cbn. destruct (f x) as [b|k] eqn:E; cbn; [|pose proof (H _ _ E); auto].
    destruct (rmap f l), (rmap f l'); cbn; auto; tauto.
  - cbn. destruct (f x) as [a|k] eqn:Ex, (f y) as [b|k'] eqn:Ey; cbn; try (pose proof (H _ _ Ex)); try (pose proof (H _ _ Ey)); subst; auto;
      destruct (rmap f l) as [|k2] eqn:El; cbn; auto; try (pose proof (H' _ _ El); subst; auto). constructor.
  - destruct (rmap f l), (rmap f l'), (rmap f l''); try tauto. eapply perm_trans; eauto.
Qed.
Lemma corrP_err P k : corrP P = Err k -> k = ValueError.
Proof. unfold corrP. destruct (isclose _ _); congruence. Qed.
Lemma flP_perm z P P' test : Permutation P P' -> flP z P' test = flP z P test.
Proof.
  intros H. unfold flP. rewrite (corrP_perm _ _ H). destruct (corrP P) as [r|k]; cbn [bind]; auto.
  destruct test; auto. destruct (loo_perm P P' H) as (L & P1 & P2).
  assert (E : rmap corrP (loo P') = rmap corrP L).
  { clear P1. induction P2 as [|l l' L L' Hl F IH]; [reflexivity|]. cbn [rmap]. rewrite (corrP_perm _ _ Hl), IH. reflexivity. }
  rewrite E. pose proof (rmap_perm corrP ValueError (loo P) L corrP_err P1) as M.
  destruct (rmap corrP (loo P)) as [l|k1], (rmap corrP L) as [l'|k2]; try tauto; cbn [bind].
  - do 3 f_equal. unfold jack. rewrite (mean_perm' _ _ M), (var1_perm _ _ M), (Permutation_length H). reflexivity.
  - destruct M; subst; reflexivity.
Qed.
Lemma same_pairs_sym a b a' b' : same_pairs a b a' b' -> same_pairs a' b' a b.
Proof. intros (A & B & C). split; auto. split; auto. apply Permutation_sym, C. Qed.
Lemma same_pairs_len a b a' b' : same_pairs a b a' b' -> length a' = length a.
Proof.
  intros (A & B & C). apply Permutation_length in C. rewrite !combine_length in C. lia.
Qed.
Lemma fl_perm z x y x' y' test strict strict' : same_pairs (angles x) (angles y) (angles x') (angles y') ->
  circ_corrcc_fl z x' y' test strict' = circ_corrcc_fl z x y test strict.
Proof.
  intros H. pose proof (same_pairs_len _ _ _ _ H) as L. destruct H as (A & B & C). rewrite !fl_core, <- B, L, <- A.
  destruct (_ && _); auto. apply flP_perm, C.
Qed.

(** Values. *)
Lemma corrP_char P r : corrP P = Ok r <->
  / 100000000 < sqrt (T saa P * T sbb P) /\ r = T sab P / sqrt (T saa P * T sbb P).
Proof.
  unfold corrP. destruct (isclose _ 0) eqn:E.
  - apply isclose0_true in E; [|apply sqrt_pos]. split; [discriminate|]. intros [H _]. lra.
  - apply isclose0_false in E; [|apply sqrt_pos]. split; [intros [= <-]; auto|]. intros [_ ->]. reflexivity.
Qed.
Lemma corrP_pos P r : corrP P = Ok r -> 0 < T saa P * T sbb P.
Proof.
  intros H. apply corrP_char in H. destruct H as [H _].
  assert (N : 0 <= T saa P * T sbb P) by (apply Rmult_le_pos; apply T_nonneg; intros; apply pow2_ge_0).
  destruct (Req_dec (T saa P * T sbb P) 0) as [E|E]; [|lra]. rewrite E, sqrt_0 in H. lra.
Qed.
Lemma corrP_range P r : corrP P = Ok r -> -1 <= r <= 1.
Proof.
  intros H. pose proof (corrP_pos _ _ H) as Pp. apply corrP_char in H. destruct H as [_ ->]. apply ratio_range; auto.
  exact (cauchy (fun pq : (R * R) * (R * R) => sin (fst (fst pq) - fst (snd pq))) (fun pq => sin (snd (fst pq) - snd (snd pq))) (triu P)).
Qed.
Lemma fl_ok z x y test strict c : circ_corrcc_fl z x y test strict = Ok c ->
  length (angles x) = length (angles y) /\ (2 <= length (angles x))%nat /\
  exists r, cr_r c = Fin r /\ corrP (combine (angles x) (angles y)) = Ok r.
Proof.
  rewrite fl_core. destruct (Nat.eqb_spec (length (angles x)) (length (angles y))) as [E|E]; cbn [andb]; [|discriminate].
  destruct (Nat.leb_spec 2 (length (angles x))) as [L|L]; [|discriminate]. unfold flP.
  destruct (corrP _) as [r|k]; cbn [bind]; [|discriminate]. destruct test.
  - destruct (rmap _ _); cbn [bind]; [|discriminate]. intros [= <-]. split; auto. split; auto. exists r. auto.
  - intros [= <-]. split; auto. split; auto. exists r. auto.
Qed.
Lemma corrP_same e t P r : e = 1 \/ e = -1 -> Forall (fun p => img e t (fst p) (snd p)) P -> corrP P = Ok r -> r = e.
Proof.
  intros E F H. pose proof (corrP_pos _ _ H) as Pp. apply corrP_char in H. destruct H as [_ ->].
  assert (Q : Forall2 (fun p p' => p = p' /\ img e t (fst p) (snd p)) P P).
  { clear Pp. induction F; constructor; auto. }
  assert (E1 : T sbb P = T saa P).
  { apply (T_rel _ sbb saa P P Q). intros x x' y y' [<- H1] [<- H2]. unfold sbb, saa.
    rewrite (img_sin e t _ _ _ _ E H1 H2), Rpow_mult_distr. replace (e ^ 2) with (e * e) by ring. rewrite sq1 by auto. ring. }
  assert (E2 : T sab P = e * T saa P).
  { rewrite <- T_scal. apply (T_rel _ sab (fun p q => e * saa p q) P P Q). intros x x' y y' [<- H1] [<- H2]. unfold sab, saa.
    rewrite (img_sin e t _ _ _ _ E H1 H2). ring. }
  rewrite E1, E2 in *. assert (0 <= T saa P) by (apply T_nonneg; intros; apply pow2_ge_0).
  rewrite sqrt_square by auto. field. intros Z. rewrite Z in Pp. lra.
Qed.
Lemma Forall_combine2 {A B} (Q : A -> B -> Prop) a b : Forall2 Q a b -> Forall (fun p => Q (fst p) (snd p)) (combine a b).
Proof. induction 1; cbn; constructor; auto. Qed.
