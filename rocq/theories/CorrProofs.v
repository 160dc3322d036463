(** Fisher-Lee correlation. *)
From Verif Require Import Prelude CircleSpec NpModel NpProofs UtilsModel UtilsProofs DescModel DescSpec DescApi
  HypMultiModel HypMulti2Model HypMulti4Proofs CorrModel CorrSpec.

Definition angles (x : ang_arg) : list R := match x with Arr l => l | Circ a _ => a end.

(** Sum over the unordered pairs. *)
Definition T {A} (f : A -> A -> R) (l : list A) : R := Rsum (map (fun p => f (fst p) (snd p)) (triu l)).
Lemma T_nil {A} (f : A -> A -> R) : T f [] = 0.
Proof. reflexivity. Qed.
Lemma T_cons {A} (f : A -> A -> R) x l : T f (x :: l) = Rsum (map (f x) l) + T f l.
Proof. unfold T. cbn [triu]. rewrite map_app, Rsum_app, map_map. reflexivity. Qed.
Lemma T_pair_sum {A} (f : A -> A -> R) l : (forall x y, f x y = f y x) -> (forall x, f x x = 0) ->
  pair_sum f l = 2 * T f l.
Proof.
  intros S D. induction l as [|x l IH]; [unfold pair_sum; rewrite T_nil; cbn; ring|].
  rewrite T_cons. unfold pair_sum in *. cbn [map]. rewrite !Rsum_cons, D.
  rewrite (Rsum_map_ext (fun p => Rsum (f p x :: map (f p) l)) (fun p => f x p + Rsum (map (f p) l)))
    by (intros p _; rewrite Rsum_cons, S; reflexivity).
  rewrite Rsum_map_plus, IH. ring.
Qed.
Lemma pair_sum_perm {A} (f : A -> A -> R) l l' : Permutation l l' -> pair_sum f l = pair_sum f l'.
Proof.
  intros P. unfold pair_sum. rewrite (Rsum_map_ext _ (fun p => Rsum (map (f p) l'))) by
    (intros; apply Rsum_perm, Permutation_map, P). apply Rsum_perm, Permutation_map, P.
Qed.
Lemma T_perm {A} (f : A -> A -> R) l l' : (forall x y, f x y = f y x) -> (forall x, f x x = 0) ->
  Permutation l l' -> T f l = T f l'.
Proof. intros S D P. pose proof (T_pair_sum f l S D). pose proof (T_pair_sum f l' S D). pose proof (pair_sum_perm f l l' P). lra. Qed.
Lemma triu_map {A B} (g : A -> B) l : triu (map g l) = map (fun p => (g (fst p), g (snd p))) (triu l).
Proof. induction l as [|x l IH]; [reflexivity|]. cbn [map triu]. rewrite map_app, !map_map, IH. f_equal. Qed.
Lemma T_map {A B} (f : B -> B -> R) (g : A -> B) l : T f (map g l) = T (fun x y => f (g x) (g y)) l.
Proof. unfold T. rewrite triu_map, map_map. reflexivity. Qed.
Lemma T_ext {A} (f g : A -> A -> R) l : (forall x y, f x y = g x y) -> T f l = T g l.
Proof. intros H. unfold T. apply Rsum_map_ext. intros; apply H. Qed.
Lemma T_scal {A} c (f : A -> A -> R) l : T (fun x y => c * f x y) l = c * T f l.
Proof. unfold T. exact (Rsum_map_scal c (fun p => f (fst p) (snd p)) (triu l)). Qed.
Lemma T_nonneg {A} (f : A -> A -> R) l : (forall x y, 0 <= f x y) -> 0 <= T f l.
Proof. intros H. unfold T. apply Rsum_map_nonneg. intros; apply H. Qed.
Lemma T_rel {A} (rel : A -> A -> Prop) (f g : A -> A -> R) l l' : Forall2 rel l l' ->
  (forall x x' y y', rel x x' -> rel y y' -> f x' y' = g x y) -> T f l' = T g l.
Proof.
  intros F H. induction F as [|x x' l l' R F IH]; [reflexivity|]. rewrite !T_cons, IH. f_equal.
  clear IH. induction F as [|y y' l l' R' F IH]; [reflexivity|]. cbn [map]. rewrite !Rsum_cons, IH. f_equal. apply H; auto.
Qed.

(** Cauchy-Schwarz. *)
Lemma cauchy {A} (f g : A -> R) l :
  Rsum (map (fun x => f x * g x) l) ^ 2 <= Rsum (map (fun x => f x ^ 2) l) * Rsum (map (fun x => g x ^ 2) l).
Proof.
  assert (Q : forall c d, 0 <= c ^ 2 * Rsum (map (fun x => f x ^ 2) l) - 2 * c * d * Rsum (map (fun x => f x * g x) l)
    + d ^ 2 * Rsum (map (fun x => g x ^ 2) l)).
  { intros c d. replace (_ + _) with (Rsum (map (fun x => (c * f x - d * g x) ^ 2) l)).
    - apply Rsum_map_nonneg. intros. apply pow2_ge_0.
    - induction l as [|x l IH]; [cbn; ring|]. cbn [map]. rewrite !Rsum_cons, IH. ring. }
  set (a := Rsum (map (fun x => f x ^ 2) l)) in *. set (b := Rsum (map (fun x => g x ^ 2) l)) in *.
  set (m := Rsum (map (fun x => f x * g x) l)) in *.
  assert (A0 : 0 <= a) by (apply Rsum_map_nonneg; intros; apply pow2_ge_0).
  assert (B0 : 0 <= b) by (apply Rsum_map_nonneg; intros; apply pow2_ge_0).
  destruct (Req_dec b 0) as [E|N].
  - pose proof (Q m (a + 1)) as H1. rewrite E in *. assert (m = 0); [|nra].
    destruct (Req_dec m 0); auto. exfalso.
    assert (0 <= m * m * (a - 2 * (a + 1))) by nra. assert (0 < m * m) by nra. nra.
  - specialize (Q b m). assert (0 < b) by lra. assert (0 <= b * (a * b - m ^ 2)) by nra.
    destruct (Rle_dec (m ^ 2) (a * b)); auto. exfalso. nra.
Qed.
Lemma ratio_range N A B : N ^ 2 <= A * B -> 0 < A * B -> -1 <= N / sqrt (A * B) <= 1.
Proof.
  intros H P. pose proof (sqrt_lt_R0 _ P) as S. pose proof (sqrt_sqrt (A * B) ltac:(lra)) as SS.
  set (s := sqrt (A * B)) in *.
  assert (HN : - s <= N <= s) by (split; nra).
  split; apply Rmult_le_reg_r with s; auto; unfold Rdiv; rewrite Rmult_assoc, Rinv_l by lra; lra.
Qed.
Lemma isclose0_false x : 0 <= x -> isclose x 0 = false <-> / 100000000 < x.
Proof.
  intros H. unfold isclose, isclose_tol. rewrite Rleb_false, Rminus_0_r, Rabs_R0, Rabs_pos_eq by lra.
  rewrite Rmult_0_r, Rplus_0_r. tauto.
Qed.
Lemma isclose0_true x : 0 <= x -> isclose x 0 = true <-> x <= / 100000000.
Proof.
  intros H. unfold isclose, isclose_tol. rewrite Rleb_true, Rminus_0_r, Rabs_R0, Rabs_pos_eq by lra.
  rewrite Rmult_0_r, Rplus_0_r. tauto.
Qed.

(** The measure on paired observations. *)
Definition sab (p q : R * R) : R := sin (fst p - fst q) * sin (snd p - snd q).
Definition saa (p q : R * R) : R := sin (fst p - fst q) ^ 2.
Definition sbb (p q : R * R) : R := sin (snd p - snd q) ^ 2.
Definition corrP (P : list (R * R)) : res R :=
  let den := sqrt (T saa P * T sbb P) in
  if isclose den 0 then Err ValueError else Ok (T sab P / den).
Lemma map_fst_combine {A B} (a : list A) (b : list B) : length a = length b -> map fst (combine a b) = a.
Proof. revert b; induction a as [|x a IH]; intros [|y b] H; cbn in *; try congruence. f_equal. apply IH. congruence. Qed.
Lemma map_snd_combine {A B} (a : list A) (b : list B) : length a = length b -> map snd (combine a b) = b.
Proof. revert b; induction a as [|x a IH]; intros [|y b] H; cbn in *; try congruence. f_equal. apply IH. congruence. Qed.
Lemma fl_corr_P a b : length a = length b -> fl_corr a b = corrP (combine a b).
Proof.
  intros H. set (P := combine a b). replace a with (map fst P) by (apply map_fst_combine, H).
  replace b with (map snd P) by (apply map_snd_combine, H).
  unfold fl_corr, fl_diff, corrP. rewrite !triu_map, !map_map, vmul_map. reflexivity.
Qed.
Definition loo {A} (P : list A) : list (list A) := map (np_delete P) (seq 0 (length P)).
Lemma loo_cons {A} (x : A) P : loo (x :: P) = P :: map (cons x) (loo P).
Proof.
  unfold loo. cbn [length seq map]. f_equal. rewrite <- seq_shift, !map_map. apply map_ext. intros i. reflexivity.
Qed.
Lemma np_delete_map {A B} (f : A -> B) l i : np_delete (map f l) i = map f (np_delete l i).
Proof. unfold np_delete. rewrite map_app, firstn_map, skipn_map. reflexivity. Qed.
Lemma loo_map {A B} (f : A -> B) P : loo (map f P) = map (map f) (loo P).
Proof. unfold loo. rewrite map_length, map_map. apply map_ext. intros; apply np_delete_map. Qed.
Definition jack (z n r : R) (raas : list R) : bool :=
  let m := mean raas in
  let s2 := var1 raas in
  negb (Rleb (n * r - (n - 1) * m - z * sqrt (s2 / n)) 0 && Rleb 0 (n * r - (n - 1) * m + z * sqrt (s2 / n))).
Definition plain_r (r : R) (rej : option bool) : corr_result :=
  {| cr_r := Fin r; cr_p_value := None; cr_reject := rej; cr_test_stat := None |}.
Definition flP (z : R) (P : list (R * R)) (test : bool) : res corr_result :=
  do r <- corrP P;
  if test then do raas <- rmap corrP (loo P); Ok (plain_r r (Some (jack z (INR (length P)) r raas)))
  else Ok (plain_r r None).
Lemma rmap_map {A B C} (f : B -> res C) (g : A -> B) l : rmap f (map g l) = rmap (fun x => f (g x)) l.
Proof. induction l as [|x l IH]; [reflexivity|]. cbn [map rmap]. rewrite IH. reflexivity. Qed.
Lemma rmap_ext {A B} (f g : A -> res B) l : (forall x, In x l -> f x = g x) -> rmap f l = rmap g l.
Proof.
  induction l as [|x l IH]; intros H; [reflexivity|]. cbn [rmap]. rewrite (H x) by now left.
  rewrite IH by (intros; apply H; now right). reflexivity.
Qed.
Lemma fl_core z x y test strict :
  circ_corrcc_fl z x y test strict =
  if Nat.eqb (length (angles x)) (length (angles y)) && Nat.leb 2 (length (angles x))
  then flP z (combine (angles x) (angles y)) test else Err ValueError.
Proof.
  assert (core : forall a b, (if negb (Nat.eqb (length a) (length b)) then Err ValueError
    else if Nat.ltb (length a) 2 then Err ValueError
    else
    do r <- fl_corr a b;
    if test then
      let n := INR (length a) in
      do raas <- rmap (fun i => fl_corr (np_delete a i) (np_delete b i)) (seq 0 (length a));
      let m := mean raas in
      let s2 := var1 raas in
      let lb := n * r - (n - 1) * m - z * sqrt (s2 / n) in
      let ub := n * r - (n - 1) * m + z * sqrt (s2 / n) in
      Ok {| cr_r := Fin r; cr_p_value := None; cr_reject := Some (negb (Rleb lb 0 && Rleb 0 ub));
            cr_test_stat := None |}
    else Ok {| cr_r := Fin r; cr_p_value := None; cr_reject := None; cr_test_stat := None |})
    = if Nat.eqb (length a) (length b) && Nat.leb 2 (length a) then flP z (combine a b) test else Err ValueError).
  { intros a b. destruct (Nat.eqb_spec (length a) (length b)) as [E|E]; cbn [negb andb]; auto.
    destruct (Nat.ltb_spec (length a) 2); destruct (Nat.leb_spec 2 (length a)); try lia; auto.
    unfold flP. rewrite <- fl_corr_P by auto. destruct (fl_corr a b) as [r|e]; cbn [bind]; auto.
    destruct test; auto. cbv zeta.
    rewrite (rmap_ext _ (fun i => corrP (np_delete (combine a b) i))).
    - unfold loo. rewrite rmap_map. rewrite combine_length, <- E, Nat.min_id.
      destruct (rmap _ _); reflexivity.
    - intros i _. set (P := combine a b). replace a with (map fst P) by (apply map_fst_combine, E).
      replace b with (map snd P) by (apply map_snd_combine, E).
      rewrite !np_delete_map, fl_corr_P by (rewrite !map_length; auto).
      f_equal. rewrite combine_fst_snd || idtac.
      induction (np_delete P i) as [|[u v] l IH]; [reflexivity|]. cbn. f_equal. exact IH. }
  unfold circ_corrcc_fl.
  destruct x as [[|a0 a]|a ?], y as [[|b0 b]|b ?]; cbn [coerce_angles bind angles fst];
    try (rewrite <- core; cbn [length]; reflexivity);
    try (destruct (Nat.eqb _ _) eqn:E; cbn [andb]; auto; apply Nat.eqb_eq in E; cbn in E; try discriminate;
         try (rewrite E); reflexivity); apply core.
Qed.
