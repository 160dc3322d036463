From Coq Require Import Sorting.
From Verif Require Import Prelude NpModel NpProofs CircleSpec UtilsModel UtilsProofs DescModel DescProofs
  DescSpec DescApi DescApi2 Desc2Model Desc2Proofs Desc5Proofs Desc6Proofs ArcProofs HypProofs Hyp2Proofs HypGofSpec HypGofProofs
  HypMultiModel HypMultiSpec HypMultiProofs.

(** * np.unique *)
Lemma dedup_in l x : In x (dedup l) <-> In x l.
Proof.
  induction l as [|a l IH]; [reflexivity|]. destruct l as [|b l]; [reflexivity|].
  cbn [dedup]. fold (dedup (b :: l)). destruct (Reqb_spec a b) as [->|N].
  - rewrite IH. simpl. tauto.
  - change (In x (a :: dedup (b :: l)) <-> In x (a :: b :: l)). simpl In at 1. rewrite IH. simpl. tauto.
Qed.
Lemma dedup_cons a b l : dedup (a :: b :: l) = if Reqb a b then dedup (b :: l) else a :: dedup (b :: l).
Proof. reflexivity. Qed.
Lemma dedup_strict l : StronglySorted Rle l -> StronglySorted Rlt (dedup l).
Proof.
  induction l as [|a l IH]; intros S; [constructor|]. destruct l as [|b l]; [repeat constructor|].
  rewrite dedup_cons. inversion S as [|? ? S1 F]; subst. destruct (Reqb_spec a b) as [->|N]; auto.
  constructor; auto. apply Forall_forall. intros x Hx. apply (proj1 (dedup_in (b :: l) x)) in Hx.
  inversion S1 as [|? ? _ G]; subst. inversion F as [|? ? Hab _]; subst.
  destruct Hx as [<-|Hx]; [lra|]. rewrite Forall_forall in G. specialize (G x Hx). lra.
Qed.
Lemma unique_in l x : In x (unique l) <-> In x l.
Proof. unfold unique. rewrite dedup_in. apply sort_in. Qed.
Lemma unique_strict l : StronglySorted Rlt (unique l).
Proof. apply dedup_strict, sort_sorted. Qed.
Lemma strict_NoDup l : StronglySorted Rlt l -> NoDup l.
Proof.
  induction 1 as [|a l S IH F]; constructor; auto. intros H. rewrite Forall_forall in F. specialize (F a H). lra.
Qed.
Lemma dedup_NoDup l : NoDup l -> dedup l = l.
Proof.
  induction l as [|a l IH]; intros N; auto. destruct l as [|b l]; auto. rewrite dedup_cons.
  inversion N as [|? ? N1 N2]; subst. destruct (Reqb_spec a b) as [->|H]; [exfalso; apply N1; now left|].
  now rewrite IH.
Qed.
Lemma unique_NoDup l : NoDup l -> unique l = nsort l.
Proof. intros H. apply dedup_NoDup. eapply Permutation_NoDup; [apply sort_perm|exact H]. Qed.

Fixpoint below (x : R) (l : list R) : nat :=
  match l with [] => 0%nat | a :: l => if Rlt_dec a x then S (below x l) else below x l end.
Lemma filter_S (p : nat -> bool) l : filter p (map S l) = map S (filter (fun i => p (S i)) l).
Proof. induction l as [|i l IH]; cbn [map filter]; auto. destruct (p (S i)); cbn [map]; congruence. Qed.
Lemma positions_cons close b a x : positions close (b :: a) x =
  (if close b x then [0%nat] else []) ++ map S (positions close a x).
Proof.
  unfold positions. cbn [length seq].
  change (filter (fun i => close (nth i (b :: a) 0) x) (0%nat :: seq 1 (length a))) with
    (if close b x then 0%nat :: filter (fun i => close (nth i (b :: a) 0) x) (seq 1 (length a))
     else filter (fun i => close (nth i (b :: a) 0) x) (seq 1 (length a))).
  rewrite <- seq_shift, (filter_S (fun i => close (nth i (b :: a) 0) x)).
  destruct (close b x); reflexivity.
Qed.
Lemma positions_none close a x : (forall y, In y a -> close y x = false) -> positions close a x = [].
Proof.
  induction a as [|b a IH]; intros H; [reflexivity|]. rewrite positions_cons, (H b), IH by (simpl; auto; intros; apply H; now right).
  reflexivity.
Qed.
Lemma below_none x a : (forall y, In y a -> x <= y) -> below x a = 0%nat.
Proof.
  induction a as [|b a IH]; intros H; cbn [below]; auto.
  destruct (Rlt_dec b x) as [L|]; [specialize (H b ltac:(now left)); lra|]. apply IH. intros; apply H; now right.
Qed.
Lemma positions_strict close a x : StronglySorted Rlt a -> In x a -> close x x = true ->
  (forall y, In y a -> y <> x -> close y x = false) -> positions close a x = [below x a].
Proof.
  intros S. induction S as [|b a S IH F]; intros Hx C H; [easy|]. rewrite positions_cons. cbn [below].
  rewrite Forall_forall in F.
  destruct (Rlt_dec b x) as [L|L].
  - rewrite (H b) by (try lra; now left). destruct Hx as [->|Hx]; [lra|].
    rewrite IH; auto. intros; apply H; auto; now right.
  - destruct Hx as [->|Hx]; [|specialize (F x Hx); lra]. rewrite C, positions_none.
    + rewrite below_none; auto. intros y Hy. specialize (F y Hy). lra.
    + intros y Hy. apply H; [now right|]. specialize (F y Hy). lra.
Qed.
Lemma positions_self close a x : In x a -> close x x = true -> positions close a x <> [].
Proof.
  induction a as [|b a IH]; intros H C; [easy|]. rewrite positions_cons. destruct H as [->|H].
  - rewrite C. discriminate.
  - specialize (IH H C). destruct (close b x); [discriminate|]. cbn [app]. intros E. apply map_eq_nil in E. contradiction.
Qed.
Lemma positions_two close a x y : In x a -> In y a -> x <> y -> close x x = true -> close y x = true ->
  (2 <= length (positions close a x))%nat.
Proof.
  induction a as [|b a IH]; intros Hx Hy N C D; [easy|]. rewrite positions_cons, app_length, map_length.
  assert (P : forall z, In z a -> close z x = true -> (1 <= length (positions close a x))%nat).
  { intros z Hz Cz. clear -Hz Cz. induction a as [|c a IH]; [easy|]. rewrite positions_cons, app_length, map_length.
    destruct Hz as [->|Hz]; [rewrite Cz; simpl; lia|]. specialize (IH Hz). lia. }
  destruct Hx as [->|Hx]; destruct Hy as [->|Hy]; try easy.
  - rewrite C. specialize (P y Hy D). simpl. lia.
  - rewrite D. specialize (P x Hx C). simpl. lia.
  - specialize (IH Hx Hy N C D). lia.
Qed.
Lemma isclose_tol_refl r a x : 0 <= r -> 0 <= a -> isclose_tol r a x x = true.
Proof.
  intros Hr Ha. unfold isclose_tol. apply Rleb_true. replace (x - x) with 0 by ring. rewrite Rabs_R0.
  pose proof (Rabs_pos x). nra.
Qed.
Lemma separated_close atol l u x y : (forall z, In z u -> In z l) -> separated atol l -> In x l -> In y u -> y <> x ->
  isclose_tol (/ 100000) atol y x = false.
Proof.
  intros U S Hx Hy N. unfold isclose_tol. specialize (S y x (U y Hy) Hx N).
  destruct (Rleb_spec (Rabs (y - x)) (atol + / 100000 * Rabs x)); auto. lra.
Qed.
Lemma positions_sep atol l x : 0 <= atol -> separated atol l -> In x l ->
  positions (isclose_tol (/ 100000) atol) (unique l) x = [below x (unique l)].
Proof.
  intros Ha S Hx. apply positions_strict.
  - apply unique_strict.
  - now apply unique_in.
  - apply isclose_tol_refl; lra.
  - intros y Hy N. apply separated_close with l (unique l); auto. intros z. apply unique_in.
Qed.

(** * Cumulative frequencies *)
Lemma strict_split a x : StronglySorted Rlt a ->
  Forall (fun y => y < x) (firstn (below x a) a) /\ Forall (fun y => x <= y) (skipn (below x a) a).
Proof.
  induction 1 as [|b a S IH F]; [split; constructor|]. cbn [below]. destruct (Rlt_dec b x) as [L|L].
  - cbn [firstn skipn]. destruct IH. split; auto.
  - rewrite below_none.
    + cbn [firstn skipn]. split; constructor; [lra|]. eapply Forall_impl; [|exact F]. simpl. intros y Hy. lra.
    + rewrite Forall_forall in F. intros y Hy. specialize (F y Hy). lra.
Qed.
Lemma below_le x a : (below x a <= length a)%nat.
Proof. induction a as [|b a IH]; simpl; [lia|]. destruct (Rlt_dec b x); lia. Qed.
Lemma below_mono x y a : x <= y -> (below x a <= below y a)%nat.
Proof.
  intros H. induction a as [|b a IH]; simpl; [lia|]. destruct (Rlt_dec b x); destruct (Rlt_dec b y); try lia; lra.
Qed.
Lemma below_strict x y a : x < y -> In x a -> (below x a < below y a)%nat.
Proof.
  intros H. induction a as [|b a IH]; simpl; intros Hx; [easy|].
  destruct Hx as [->|Hx].
  - destruct (Rlt_dec x x); [lra|]. destruct (Rlt_dec x y); [|lra]. pose proof (below_mono x y a (Rlt_le _ _ H)). lia.
  - specialize (IH Hx). destruct (Rlt_dec b x); destruct (Rlt_dec b y); try lia; lra.
Qed.
Lemma at_most_ext x y l : (forall z, In z l -> (z <= x <-> z <= y)) -> at_most x l = at_most y l.
Proof.
  induction l as [|a l IH]; intros H; simpl; auto. rewrite IH by (intros; apply H; now right).
  specialize (H a ltac:(now left)). destruct (Rle_dec a x); destruct (Rle_dec a y); tauto.
Qed.
Lemma at_most_none x l : (forall z, In z l -> x < z) -> at_most x l = 0%nat.
Proof.
  induction l as [|a l IH]; intros H; simpl; auto.
  destruct (Rle_dec a x) as [L|]; [specialize (H a ltac:(now left)); lra|]. apply IH. intros; apply H; now right.
Qed.
Lemma at_most_all x l : (forall z, In z l -> z <= x) -> at_most x l = length l.
Proof.
  induction l as [|a l IH]; intros H; simpl; auto.
  destruct (Rle_dec a x) as [L|N]; [|specialize (H a ltac:(now left)); contradiction]. rewrite IH; auto. intros; apply H; now right.
Qed.
Lemma at_most_perm x l l' : Permutation l l' -> at_most x l = at_most x l'.
Proof.
  induction 1 as [|a l l' P IH|a b l|l1 l2 l3 P1 IH1 P2 IH2]; simpl; auto; try congruence.
  - now rewrite IH.
  - destruct (Rle_dec b x); destruct (Rle_dec a x); auto.
Qed.
Lemma at_most_app x a b : at_most x (a ++ b) = (at_most x a + at_most x b)%nat.
Proof. induction a as [|y a IH]; simpl; auto. destruct (Rle_dec y x); simpl; lia. Qed.
Lemma rank_max_at_most l x : rank_max l x = INR (at_most x l).
Proof.
  unfold rank_max, count_if. f_equal. induction l as [|a l IH]; simpl; auto.
  destruct (Rleb_spec a x); destruct (Rle_dec a x); simpl; try lra; congruence.
Qed.
(** Value of the last listed point not beyond x. *)
Fixpoint stepf (F : R -> R) (f0 : R) (e : list R) (x : R) : R :=
  match e with [] => f0 | b :: e => if Rle_dec b x then stepf F (F b) e x else f0 end.
Lemma map_const_repeat {A B} (c : B) (l : list A) : map (fun _ => c) l = repeat c (length l).
Proof. induction l; simpl; congruence. Qed.
Lemma stepf_repeat F a : StronglySorted Rlt a -> forall e f0 k0,
  ascending e -> (forall x, In x e -> (k0 <= below x a)%nat) -> (k0 <= length a)%nat ->
  existsb (fun z => Z.ltb z 0) (zdiff (k0 :: map (fun x => below x a) e ++ [length a])) = false /\
  np_repeat (f0 :: map F e) (map Z.to_nat (zdiff (k0 :: map (fun x => below x a) e ++ [length a]))) =
  map (stepf F f0 e) (skipn k0 a).
Proof.
  intros S. induction e as [|b e IH]; intros f0 k0 A K L.
  - cbn. split.
    + rewrite orb_false_r. apply Z.ltb_ge. lia.
    + rewrite app_nil_r, map_const_repeat, skipn_length. f_equal. lia.
  - assert (Hb : (k0 <= below b a)%nat) by (apply K; now left).
    assert (A' : ascending e /\ (forall x, In x e -> b <= x)).
    { clear -A. revert b A. induction e as [|c e IH]; intros b A; [split; [constructor|easy]|].
      inversion A; subst. split; auto. destruct (IH c H3) as [_ G].
      intros x [<-|Hx]; auto. specialize (G x Hx). lra. }
    destruct A' as [A1 A2].
    destruct (IH (F b) (below b a) A1) as [I1 I2].
    { intros x Hx. apply below_mono; auto. }
    { apply below_le. }
    change (zdiff (k0 :: map (fun x => below x a) (b :: e) ++ [length a]))
      with ((Z.of_nat (below b a) - Z.of_nat k0)%Z :: zdiff (below b a :: map (fun x => below x a) e ++ [length a])).
    set (zs := zdiff (below b a :: map (fun x => below x a) e ++ [length a])) in *.
    change (np_repeat (f0 :: map F (b :: e)) (map Z.to_nat ((Z.of_nat (below b a) - Z.of_nat k0)%Z :: zs)))
      with (repeat f0 (Z.to_nat (Z.of_nat (below b a) - Z.of_nat k0)) ++ np_repeat (F b :: map F e) (map Z.to_nat zs)).
    rewrite I2. split.
    { cbn [existsb]. rewrite I1, orb_false_r. apply Z.ltb_ge. lia. }
    destruct (strict_split a b S) as [G1 G2].
    assert (E : skipn k0 a = skipn k0 (firstn (below b a) a) ++ skipn (below b a) a).
    { rewrite <- (firstn_skipn (below b a) a) at 1. rewrite skipn_app.
      rewrite firstn_length. replace (k0 - Nat.min (below b a) (length a))%nat with 0%nat by (pose proof (below_le b a); lia).
      reflexivity. }
    rewrite E, map_app. f_equal.
    + assert (H : Forall (fun y => y < b) (skipn k0 (firstn (below b a) a))).
      { rewrite <- (firstn_skipn k0 (firstn (below b a) a)) in G1. apply Forall_app in G1. apply G1. }
      transitivity (repeat f0 (length (skipn k0 (firstn (below b a) a)))).
      * f_equal. rewrite skipn_length, firstn_length. pose proof (below_le b a). lia.
      * rewrite <- map_const_repeat. apply map_ext_in. intros y Hy. rewrite Forall_forall in H. specialize (H y Hy).
        cbn [stepf]. destruct (Rle_dec b y); [lra|auto].
    + apply map_ext_in. intros y Hy. rewrite Forall_forall in G2. specialize (G2 y Hy).
      cbn [stepf]. destruct (Rle_dec b y); [auto|lra].
Qed.
Lemma asc_app_inv pre e : ascending (pre ++ e) -> forall x y, In x pre -> In y e -> x <= y.
Proof.
  induction pre as [|a pre IH]; [easy|]. intros A x y Hx Hy.
  assert (B : ascending (pre ++ e) /\ (forall z, In z (pre ++ e) -> a <= z)).
  { clear -A. simpl in A. revert a A. induction (pre ++ e) as [|c l IH]; intros b A; [split; [constructor|easy]|].
    inversion A; subst. split; auto. destruct (IH c H3) as [_ G].
    intros x [<-|Hx]; auto. specialize (G x Hx). lra. }
  destruct B as [B1 B2]. destruct Hx as [->|Hx]; [apply B2, in_or_app; auto|eauto].
Qed.
Lemma stepf_count full (c : R) e : forall pre f0 x, full = pre ++ e -> ascending full ->
  (pre = [] /\ f0 = 0) \/ (exists l, In l pre /\ (forall y, In y pre -> y <= l) /\ l <= x /\ f0 = INR (at_most l full) / c) ->
  stepf (fun b => INR (at_most b full) / c) f0 e x = INR (at_most x full) / c.
Proof.
  induction e as [|b e IH]; intros pre f0 x E A H; cbn [stepf].
  - rewrite app_nil_r in E. destruct H as [[-> ->]|(l & Hl & Hm & Hx & ->)].
    + subst full. simpl. unfold Rdiv. ring.
    + f_equal. f_equal. apply at_most_ext. intros z Hz. subst full. specialize (Hm z Hz). lra.
  - destruct (Rle_dec b x) as [L|L].
    + apply IH with (pre ++ [b]); auto.
      * now rewrite <- app_assoc.
      * right. exists b. split; [apply in_or_app; right; now left|]. split; [|auto].
        intros y Hy. apply in_app_or in Hy. destruct Hy as [Hy|[<-|[]]]; [|lra].
        apply asc_app_inv with pre (b :: e); auto; [now subst|now left].
    + assert (G : forall z, In z (b :: e) -> b <= z).
      { intros z [<-|Hz]; [lra|]. apply asc_app_inv with (pre ++ [b]) e; auto.
        - rewrite <- app_assoc. now subst.
        - apply in_or_app; right; now left. }
      destruct H as [[-> ->]|(l & Hl & Hm & Hx & ->)].
      * subst full. simpl app. rewrite at_most_none; [simpl; unfold Rdiv; ring|].
        intros z Hz. specialize (G z Hz). lra.
      * f_equal. f_equal. apply at_most_ext. intros z Hz. subst full. apply in_app_or in Hz. destruct Hz as [Hz|Hz].
        -- specialize (Hm z Hz). lra.
        -- specialize (G z Hz). lra.
Qed.
Lemma zdiff_length l a : length (zdiff (a :: l)) = length l.
Proof. revert a. induction l as [|b l IH]; intros a; [reflexivity|]. change (S (length (zdiff (b :: l))) = S (length l)). now rewrite IH. Qed.
Lemma flat_map_single {A B} (f : A -> list B) (g : A -> B) l : (forall x, In x l -> f x = [g x]) -> flat_map f l = map g l.
Proof.
  induction l as [|x l IH]; intros H; simpl; auto. rewrite (H x), IH by (simpl; auto; intros; apply H; now right). reflexivity.
Qed.
Lemma cumfreq_spec l s e : separated tol10 l -> cs_expand s = e -> cs_n s = length e -> e <> [] ->
  (forall x, In x e -> In x l) -> ascending e -> cumfreq (unique l) s = Ok (map (ecdf e) (unique l)).
Proof.
  intros S E N NE Sub A. unfold cumfreq. rewrite E, N.
  assert (Z : Nat.eqb (length e) 0 = false) by (apply Nat.eqb_neq; destruct e; [congruence|discriminate]). rewrite Z.
  fold tol10. assert (T : 0 <= tol10) by (unfold tol10; lra).
  rewrite (flat_map_single _ (fun x => below x (unique l))) by (intros x Hx; apply positions_sep; auto).
  unfold repeat_z. cbn [length]. rewrite map_length, zdiff_length, app_length, map_length. cbn [length].
  rewrite Nat.add_1_r, Nat.eqb_refl. cbn [negb].
  rewrite (map_ext _ (fun b => INR (at_most b e) / INR (length e))) by (intros; now rewrite rank_max_at_most).
  destruct (stepf_repeat (fun b => INR (at_most b e) / INR (length e)) (unique l) (unique_strict l) e 0 0%nat A) as [-> ->];
    [intros; lia|lia|]. f_equal. cbn [skipn]. apply map_ext. intros x.
  apply (stepf_count e (INR (length e)) e [] 0 x); auto.
Qed.
Lemma not_ascending_split e : ~ ascending e -> exists pre a b post, e = pre ++ a :: b :: post /\ b < a.
Proof.
  induction e as [|a e IH]; intros H; [exfalso; apply H; constructor|].
  destruct e as [|b e]; [exfalso; apply H; constructor|]. destruct (Rle_dec a b) as [L|L].
  - destruct IH as (pre & x & y & post & -> & Hxy).
    + intros A. apply H. now constructor.
    + exists (a :: pre), x, y, post. split; auto.
  - exists [], a, b, e. split; auto. lra.
Qed.
Lemma zdiff_neg pre x y post : (y < x)%nat -> existsb (fun z => Z.ltb z 0) (zdiff (pre ++ x :: y :: post)) = true.
Proof.
  intros H. induction pre as [|p pre IH].
  - cbn. apply orb_true_iff. left. apply Z.ltb_lt. lia.
  - destruct pre as [|q pre]; [|]; apply orb_true_iff; right; exact IH.
Qed.
Lemma cumfreq_unsorted l s e : separated tol10 l -> cs_expand s = e -> cs_n s = length e -> e <> [] ->
  (forall x, In x e -> In x l) -> ~ ascending e -> cumfreq (unique l) s = Err ValueError.
Proof.
  intros S E N NE Sub A. unfold cumfreq. rewrite E, N.
  destruct (Nat.eqb _ 0); auto.
  fold tol10. assert (T : 0 <= tol10) by (unfold tol10; lra).
  rewrite (flat_map_single _ (fun x => below x (unique l))) by (intros x Hx; apply positions_sep; auto).
  unfold repeat_z. destruct (negb _); auto.
  destruct (not_ascending_split e A) as (pre & a & b & post & -> & L).
  rewrite map_app. cbn [map]. rewrite <- app_assoc. cbn [app].
  rewrite app_comm_cons, zdiff_neg; auto. apply below_strict; auto. apply unique_in, Sub.
  apply in_or_app; right; right; now left.
Qed.
Lemma flat_map_long {A B} (f : A -> list B) l : (forall x, In x l -> (1 <= length (f x))%nat) ->
  (exists x, In x l /\ (2 <= length (f x))%nat) -> (length l < length (flat_map f l))%nat.
Proof.
  assert (G : forall l, (forall x, In x l -> (1 <= length (f x))%nat) -> (length l <= length (flat_map f l))%nat).
  { clear l. induction l as [|x l IH]; intros H; simpl; [lia|]. rewrite app_length.
    specialize (IH ltac:(intros; apply H; now right)). specialize (H x ltac:(now left)). lia. }
  induction l as [|x l IH]; intros H (y & Hy & L); [easy|]. simpl. rewrite app_length.
  pose proof (H x ltac:(now left)). destruct Hy as [->|Hy].
  - pose proof (G l ltac:(intros; apply H; now right)). lia.
  - assert (length l < length (flat_map f l))%nat by (apply IH; eauto; intros; apply H; now right). lia.
Qed.
Lemma cumfreq_close l s e : cs_expand s = e -> (forall x, In x e -> In x l) ->
  (exists x y, In x e /\ In y l /\ x <> y /\ Rabs (y - x) <= tol10 + / 100000 * Rabs x) ->
  cumfreq (unique l) s = Err ValueError.
Proof.
  intros E Sub (x & y & Hx & Hy & N & C). unfold cumfreq. rewrite E. destruct (Nat.eqb _ 0); auto. fold tol10.
  assert (T : 0 <= tol10) by (unfold tol10; lra).
  unfold repeat_z. set (p := positions (isclose_tol (/ 100000) tol10) (unique l)).
  assert (L : (length e < length (flat_map p e))%nat).
  { apply flat_map_long.
    - intros z Hz. assert (P : p z <> []) by (apply positions_self; [apply unique_in; auto|apply isclose_tol_refl; lra]).
      destruct (p z); [congruence|simpl; lia].
    - exists x. split; auto. apply positions_two with y; auto; try (apply unique_in; auto).
      + apply isclose_tol_refl; lra.
      + unfold isclose_tol. apply Rleb_true. exact C. }
  cbn [length]. rewrite map_length, zdiff_length, app_length. cbn [length].
  destruct (Nat.eqb_spec (S (length e)) (length (flat_map p e) + 1)%nat); [lia|]. reflexivity.
Qed.

(** * Watson's two-sample U2 *)
Lemma Rsum_pick (g : R -> R) u x : NoDup u -> In x u ->
  Rsum (map (fun a => (if Reqb x a then 1 else 0) * g a) u) = g x.
Proof.
  induction 1 as [|a u Na N IH]; intros Hx; [easy|]. cbn [map]. rewrite Rsum_cons.
  destruct Hx as [->|Hx].
  - destruct (Reqb_spec x x); [|easy]. rewrite (Rsum_map_ext _ (fun _ => 0)).
    + rewrite Rsum_map_const. ring.
    + intros y Hy. destruct (Reqb_spec x y) as [->|]; [contradiction|ring].
  - rewrite IH by auto. destruct (Reqb_spec x a) as [->|]; [contradiction|ring].
Qed.
Lemma Rsum_counts (g : R -> R) u l : NoDup u -> (forall x, In x l -> In x u) ->
  Rsum (map (fun a => INR (count_if (fun y => Reqb y a) l) * g a) u) = Rsum (map g l).
Proof.
  intros N. induction l as [|x l IH]; intros H.
  - cbn. rewrite (Rsum_map_ext _ (fun _ => 0)) by (intros; ring). rewrite Rsum_map_const. ring.
  - cbn [map]. rewrite Rsum_cons, <- IH by (intros; apply H; now right).
    rewrite <- (Rsum_pick g u x N) by (apply H; now left). rewrite <- Rsum_map_plus. apply Rsum_map_ext.
    intros a _. unfold count_if. cbn [filter]. destruct (Reqb x a); cbn [length]; rewrite ?S_INR; ring.
Qed.
Lemma vmul_map {A} (f g : A -> R) l : vmul (map f l) (map g l) = map (fun a => f a * g a) l.
Proof. unfold vmul, map2. induction l; simpl; congruence. Qed.
Lemma map2_map {A B C D} (h : B -> C -> D) (f : A -> B) (g : A -> C) l :
  map2 h (map f l) (map g l) = map (fun a => h (f a) (g a)) l.
Proof. unfold map2. induction l; simpl; congruence. Qed.
Lemma u2_spec g1 g2 a b : tabulates g1 a -> tabulates g2 b -> ascending a -> ascending b -> separated tol10 (a ++ b) ->
  watson_u2_test [g1; g2] = Ok (two_sample_U2 a b, 2 * exp (- (1974 / 100) * two_sample_U2 a b)).
Proof.
  intros T1 T2 Aa Ab S.
  assert (T : Forall2 tabulates [g1; g2] [a; b]) by (constructor; [auto|constructor; [auto|constructor]]).
  destruct (coerce_samples_tab _ _ (fun H => nil_cons (eq_sym H)) T) as (cs & E & A).
  unfold watson_u2_test. rewrite E. cbn [bind].
  inversion A as [|? ? c0 ? ? ? S0 A1]; subst. inversion A1 as [|? ? c1 ? ? ? S1 A2]; subst. inversion A2; subst.
  rewrite (sees_expand _ _ _ S0), (sees_expand _ _ _ S1).
  rewrite (cumfreq_spec (a ++ b) c0 a); auto; try apply (sees_expand _ _ _ S0); try apply (sees_n _ _ _ S0); try apply T1;
    [|intros; apply in_or_app; auto]. cbn [bind].
  rewrite (cumfreq_spec (a ++ b) c1 b); auto; try apply (sees_expand _ _ _ S1); try apply (sees_n _ _ _ S1); try apply T2;
    [|intros; apply in_or_app; auto]. cbn [bind].
  rewrite (sees_n _ _ _ S0), (sees_n _ _ _ S1).
  assert (EU : INR (length a) * INR (length b) / INR (length a + length b) ^ 2 *
    (Rsum (vmul (unique_counts (a ++ b)) (map (fun x => x ^ 2) (map2 (fun x y => y - x) (map (ecdf a) (unique (a ++ b))) (map (ecdf b) (unique (a ++ b)))))) -
     Rsum (vmul (unique_counts (a ++ b)) (map2 (fun x y => y - x) (map (ecdf a) (unique (a ++ b))) (map (ecdf b) (unique (a ++ b))))) ^ 2
       / INR (length a + length b)) = two_sample_U2 a b).
  { rewrite map2_map, map_map. unfold unique_counts. rewrite !vmul_map.
    rewrite (Rsum_counts (fun x => (ecdf b x - ecdf a x) ^ 2)), (Rsum_counts (fun x => ecdf b x - ecdf a x))
      by (try apply strict_NoDup, unique_strict; intros; now apply unique_in).
    unfold two_sample_U2. f_equal. f_equal.
    - apply Rsum_map_ext. intros; ring.
    - f_equal. rewrite (Rsum_map_ext (fun x => ecdf b x - ecdf a x) (fun x => -1 * (ecdf a x - ecdf b x))) by (intros; ring).
      rewrite Rsum_map_scal. ring. }
  rewrite EU. reflexivity.
Qed.
Lemma u2_errors g1 g2 a b : tabulates g1 a -> tabulates g2 b ->
  (separated tol10 (a ++ b) /\ (~ ascending a \/ ~ ascending b)) \/
  (exists x y, In x (a ++ b) /\ In y (a ++ b) /\ x <> y /\ Rabs (y - x) <= tol10 + / 100000 * Rabs x) ->
  watson_u2_test [g1; g2] = Err ValueError.
Proof.
  intros T1 T2 H.
  assert (T : Forall2 tabulates [g1; g2] [a; b]) by (constructor; [auto|constructor; [auto|constructor]]).
  destruct (coerce_samples_tab _ _ (fun H => nil_cons (eq_sym H)) T) as (cs & E & A).
  unfold watson_u2_test. rewrite E. cbn [bind].
  inversion A as [|? ? c0 ? ? ? S0 A1]; subst. inversion A1 as [|? ? c1 ? ? ? S1 A2]; subst. inversion A2; subst.
  rewrite (sees_expand _ _ _ S0), (sees_expand _ _ _ S1).
  assert (K : forall s u, match cumfreq u s with Ok _ => True | Err e => e = ValueError end).
  { intros s u. unfold cumfreq, repeat_z. destruct (Nat.eqb _ 0); auto. destruct (negb _); auto. destruct (existsb _ _); auto. }
  assert (G : cumfreq (unique (a ++ b)) c0 = Err ValueError \/ cumfreq (unique (a ++ b)) c1 = Err ValueError).
  { destruct H as [[S [H|H]]|(x & y & Hx & Hy & N & C)].
    - left. apply cumfreq_unsorted with a; auto; try apply (sees_expand _ _ _ S0); try apply (sees_n _ _ _ S0); try apply T1.
      intros; apply in_or_app; auto.
    - right. apply cumfreq_unsorted with b; auto; try apply (sees_expand _ _ _ S1); try apply (sees_n _ _ _ S1); try apply T2.
      intros; apply in_or_app; auto.
    - apply in_app_or in Hx. destruct Hx as [Hx|Hx]; [left; apply cumfreq_close with a|right; apply cumfreq_close with b];
        try apply (sees_expand _ _ _ S0); try apply (sees_expand _ _ _ S1); try (intros; apply in_or_app; auto);
        exists x, y; auto. }
  pose proof (K c0 (unique (a ++ b))) as K0.
  destruct (cumfreq (unique (a ++ b)) c0); cbn [bind]; [|now subst].
  destruct G as [G|G]; [discriminate|]. now rewrite G.
Qed.
Lemma u2_arity gs os : Forall2 tabulates gs os -> length gs <> 2%nat -> watson_u2_test gs = Err ValueError.
Proof.
  intros T L. destruct gs as [|g gs]; [reflexivity|].
  destruct (coerce_samples_tab _ _ (fun H => nil_cons (eq_sym H)) T) as (cs & E & A).
  unfold watson_u2_test. rewrite E. cbn [bind].
  assert (LC : length cs = length (g :: gs)) by (clear -A; induction A; simpl; congruence).
  destruct cs as [|c0 [|c1 [|c2 cs]]]; auto. simpl in *. lia.
Qed.
Lemma ssd_expand l : l <> [] -> ssd l = Rsum (map (fun d => d ^ 2) l) - Rsum l ^ 2 / INR (length l).
Proof.
  intros H. assert (L : INR (length l) <> 0) by (apply not_0_INR; destruct l; [congruence|discriminate]).
  unfold ssd. set (m := mean l).
  rewrite (Rsum_map_ext _ (fun d => d ^ 2 + (-2 * m) * d + m ^ 2)) by (intros; ring).
  rewrite !Rsum_map_plus, Rsum_map_scal, Rsum_map_const, map_id. unfold m, mean. field. exact L.
Qed.
Lemma u2_ssd a b : a ++ b <> [] -> two_sample_U2 a b =
  INR (length a) * INR (length b) / INR (length a + length b) ^ 2 * ssd (map (fun x => ecdf a x - ecdf b x) (a ++ b)).
Proof.
  intros H. rewrite ssd_expand by (intros E; apply map_eq_nil in E; contradiction).
  rewrite map_map, map_length, app_length. reflexivity.
Qed.
Lemma ssd_nonneg l : 0 <= ssd l.
Proof. apply Rsum_map_nonneg. intros. apply pow2_ge_0. Qed.
Lemma u2_nonneg a b : a <> [] -> b <> [] -> 0 <= two_sample_U2 a b.
Proof.
  intros Na Nb. rewrite u2_ssd by (destruct a; [congruence|discriminate]).
  apply Rmult_le_pos; [|apply ssd_nonneg]. apply Rdiv_ge0.
  - apply Rmult_le_pos; apply pos_INR.
  - apply pow_lt, lt_0_INR. destruct a; [congruence|simpl; lia].
Qed.
Lemma list_max (l : list R) : l <> [] -> exists m, In m l /\ forall x, In x l -> x <= m.
Proof.
  induction l as [|a l IH]; intros H; [congruence|]. destruct l as [|b l].
  - exists a. split; [now left|]. intros x [<-|[]]; lra.
  - destruct IH as (m & Hm & Hx); [discriminate|]. destruct (Rle_dec a m).
    + exists m. split; [now right|]. intros x [<-|H']; auto.
    + exists a. split; [now left|]. intros x [<-|H']; [lra|]. specialize (Hx x H'). lra.
Qed.
Lemma ecdf_top e x : e <> [] -> (forall y, In y e -> y <= x) -> ecdf e x = 1.
Proof.
  intros N H. unfold ecdf. rewrite at_most_all by exact H. apply Rinv_r, not_0_INR. destruct e; [congruence|discriminate].
Qed.
Lemma last_below l x : (forall y, In y l -> x < y) \/ exists m, In m l /\ m <= x /\ forall y, In y l -> y <= x -> y <= m.
Proof.
  induction l as [|a l IH]; [left; easy|]. destruct (Rle_dec a x) as [L|L].
  - right. destruct IH as [H|(m & Hm & Hx & H)].
    + exists a. split; [now left|]. split; auto. intros y [<-|Hy]; [lra|]. specialize (H y Hy). lra.
    + destruct (Rle_dec a m).
      * exists m. split; [now right|]. split; auto. intros y [<-|Hy]; auto.
      * exists a. split; [now left|]. split; auto. intros y [<-|Hy] Hyx; [lra|]. specialize (H y Hy Hyx). lra.
  - destruct IH as [H|(m & Hm & Hx & H)].
    + left. intros y [<-|Hy]; [lra|auto].
    + right. exists m. split; [now right|]. split; auto. intros y [<-|Hy] Hyx; [lra|auto].
Qed.
Lemma u2_zero a b : a <> [] -> b <> [] -> (two_sample_U2 a b = 0 <-> forall x, ecdf a x = ecdf b x).
Proof.
  intros Na Nb. assert (Nab : a ++ b <> []) by (destruct a; [congruence|discriminate]).
  assert (La : 0 < INR (length a)) by (apply lt_0_INR; destruct a; [congruence|simpl; lia]).
  assert (Lb : 0 < INR (length b)) by (apply lt_0_INR; destruct b; [congruence|simpl; lia]).
  rewrite u2_ssd by exact Nab. rewrite plus_INR.
  assert (K : 0 < INR (length a) * INR (length b) / (INR (length a) + INR (length b)) ^ 2).
  { apply Rdiv_lt_0_compat; [nra|]. apply pow_lt. lra. }
  split.
  - intros E. assert (Z : ssd (map (fun x => ecdf a x - ecdf b x) (a ++ b)) = 0) by nra.
    unfold ssd in Z. set (d := fun x => ecdf a x - ecdf b x) in *. set (m := mean (map d (a ++ b))) in *.
    assert (C : forall y, In y (a ++ b) -> d y = m).
    { intros y Hy. assert (Q : (d y - m) ^ 2 = 0).
      { apply (Rsum_map_0 (fun e => (e - m) ^ 2) (map d (a ++ b))); auto; [intros; apply pow2_ge_0|now apply in_map]. }
      nra. }
    destruct (list_max (a ++ b) Nab) as (top & Ht & Hm).
    assert (D : d top = 0).
    { unfold d. rewrite !ecdf_top; auto; try lra; intros y Hy; apply Hm, in_or_app; auto. }
    assert (M0 : m = 0) by (rewrite <- (C top Ht); exact D).
    intros x. destruct (last_below (a ++ b) x) as [H|(l & Hl & Hx & H)].
    + unfold ecdf. rewrite !at_most_none by (intros z Hz; apply H, in_or_app; auto). simpl. unfold Rdiv. ring.
    + specialize (C l Hl). unfold d in C. unfold ecdf in *.
      rewrite (at_most_ext x l a), (at_most_ext x l b); [rewrite M0 in C; lra| |];
        intros z Hz; (split; intros G; [apply H; auto; apply in_or_app; auto|lra]).
  - intros H. rewrite (map_ext _ (fun _ => 0)) by (intros x; rewrite H; ring).
    assert (Z : forall l : list R, ssd (map (fun _ => 0) l) = 0).
    { intros l. unfold ssd, mean. rewrite Rsum_map_const. rewrite map_map.
      rewrite (Rsum_map_ext _ (fun _ => 0)) by (intros; unfold Rdiv; ring). rewrite Rsum_map_const. ring. }
    rewrite Z. ring.
Qed.
Lemma ecdf_perm l l' x : Permutation l l' -> ecdf l x = ecdf l' x.
Proof. intros P. unfold ecdf. now rewrite (at_most_perm x l l' P), (Permutation_length P). Qed.
Lemma u2_swap a b : two_sample_U2 b a = two_sample_U2 a b.
Proof.
  unfold two_sample_U2. rewrite (Nat.add_comm (length b)), (Rmult_comm (INR (length b))).
  f_equal. f_equal.
  - rewrite (Rsum_perm _ (map (fun x => (ecdf b x - ecdf a x) ^ 2) (a ++ b))) by (apply Permutation_map, Permutation_app_comm).
    apply Rsum_map_ext. intros; ring.
  - f_equal. rewrite (Rsum_perm _ (map (fun x => ecdf b x - ecdf a x) (a ++ b))) by (apply Permutation_map, Permutation_app_comm).
    rewrite (Rsum_map_ext _ (fun x => -1 * (ecdf a x - ecdf b x))) by (intros; ring). rewrite Rsum_map_scal. ring.
Qed.
Lemma u2_perm a a' b b' : Permutation a a' -> Permutation b b' -> two_sample_U2 a' b' = two_sample_U2 a b.
Proof.
  intros P Q. unfold two_sample_U2. rewrite (Permutation_length P), (Permutation_length Q).
  assert (PQ : Permutation (a ++ b) (a' ++ b')) by (apply Permutation_app; auto).
  f_equal. f_equal.
  - rewrite (Rsum_perm _ _ (Permutation_map (fun x => (ecdf a x - ecdf b x) ^ 2) PQ)).
    apply Rsum_map_ext. intros x _. now rewrite (ecdf_perm a a'), (ecdf_perm b b').
  - f_equal. rewrite (Rsum_perm _ _ (Permutation_map (fun x => ecdf a x - ecdf b x) PQ)). f_equal.
    apply Rsum_map_ext. intros x _. now rewrite (ecdf_perm a a'), (ecdf_perm b b').
Qed.
(** Turning all observations and reading them in [0, 2 pi) again. *)
Definition turn_w (t x : R) : R := angmod0 (x + t).
Definition turn_c (t : R) : R := 2 * PI - angmod0 t.
Lemma turn_val t x : 0 <= x < 2 * PI -> (turn_w t) x = if Rlt_dec x (turn_c t) then x + angmod0 t else x + angmod0 t - 2 * PI.
Proof.
  intros Hx. unfold turn_w. pose proof (angmod0_range t) as B. pose proof (angmod0_same_dir t) as D.
  apply angmod0_unique.
  - unfold turn_c. destruct (Rlt_dec x (2 * PI - angmod0 t)); lra.
  - destruct D as (k & Hk). unfold turn_c. destruct (Rlt_dec x (2 * PI - angmod0 t)).
    + exists k. lra.
    + exists (k - 1)%Z. rewrite minus_IZR. lra.
Qed.
Lemma turn_at_most t x l : 0 <= x < 2 * PI -> on_turn l ->
  INR (at_most ((turn_w t) x) (map (turn_w t) l)) = INR (at_most x l) + (if Rlt_dec x (turn_c t) then INR (length l) else 0) - INR (below (turn_c t) l).
Proof.
  intros Hx H. pose proof (angmod0_range t) as B. induction H as [|y l Hy H IH].
  - simpl. destruct (Rlt_dec x (turn_c t)); lra.
  - cbn [map at_most below length]. rewrite (turn_val t y Hy), (turn_val t x Hx) in *. unfold turn_c in *.
    destruct (Rlt_dec x (2 * PI - angmod0 t)); destruct (Rlt_dec y (2 * PI - angmod0 t));
    repeat match goal with |- context [Rle_dec ?u ?v] => destruct (Rle_dec u v) end; rewrite ?S_INR; lra.
Qed.
Lemma turn_ecdf t x l : l <> [] -> 0 <= x < 2 * PI -> on_turn l ->
  ecdf (map (turn_w t) l) ((turn_w t) x) = ecdf l x + (if Rlt_dec x (turn_c t) then 1 else 0) - INR (below (turn_c t) l) / INR (length l).
Proof.
  intros N Hx H. unfold ecdf. rewrite turn_at_most, map_length by auto.
  assert (L : INR (length l) <> 0) by (apply not_0_INR; destruct l; [congruence|discriminate]).
  destruct (Rlt_dec x (turn_c t)); field; auto.
Qed.
Lemma turn_u2 t a b : a <> [] -> b <> [] -> on_turn a -> on_turn b ->
  two_sample_U2 (map (turn_w t) a) (map (turn_w t) b) = two_sample_U2 a b.
Proof.
  intros Na Nb Ha Hb.
  assert (Nab : a ++ b <> []) by (destruct a; [congruence|discriminate]).
  rewrite !u2_ssd by (auto; rewrite <- map_app; intros E; apply map_eq_nil in E; contradiction).
  rewrite !map_length. f_equal. rewrite <- map_app, map_map.
  set (d := fun x => ecdf a x - ecdf b x).
  set (k := INR (below (turn_c t) b) / INR (length b) - INR (below (turn_c t) a) / INR (length a)).
  transitivity (ssd (map (fun y => 1 * y + k) (map d (a ++ b)))).
  - f_equal. rewrite map_map. apply map_ext_in. intros x Hx.
    assert (Bx : 0 <= x < 2 * PI).
    { unfold on_turn in *. rewrite Forall_forall in Ha, Hb. apply in_app_or in Hx. destruct Hx; auto. }
    rewrite !turn_ecdf by auto. unfold d, k. destruct (Rlt_dec x (turn_c t)); ring.
  - rewrite ssd_affine; [ring|]. intros E. apply map_eq_nil in E. contradiction.
Qed.
Lemma turned_is_map t a b : turned_obs t a b -> on_turn b -> exists l, Permutation a l /\ b = map (fun x => angmod0 (x + t)) l.
Proof.
  intros (l & P & F) H. exists l. split; auto. clear P. induction F as [|x y l b S F IH]; auto.
  inversion H; subst. cbn [map]. rewrite <- IH by auto. f_equal. symmetry. apply angmod0_unique; auto.
Qed.
Lemma u2_turned t a b a' b' : a <> [] -> b <> [] -> on_turn a -> on_turn b -> on_turn a' -> on_turn b' ->
  turned_obs t a a' -> turned_obs t b b' -> two_sample_U2 a' b' = two_sample_U2 a b.
Proof.
  intros Na Nb Ha Hb Ha' Hb' Ta Tb.
  destruct (turned_is_map _ _ _ Ta Ha') as (la & Pa & ->). destruct (turned_is_map _ _ _ Tb Hb') as (lb & Pb & ->).
  change (fun x => angmod0 (x + t)) with (turn_w t). rewrite (turn_u2 t la lb).
  - now apply u2_perm.
  - intros ->. apply Permutation_sym, Permutation_nil in Pa. contradiction.
  - intros ->. apply Permutation_sym, Permutation_nil in Pb. contradiction.
  - unfold on_turn in *. now rewrite <- Pa.
  - unfold on_turn in *. now rewrite <- Pb.
Qed.
