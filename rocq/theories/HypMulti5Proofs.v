From Coq Require Import Sorting.
From Verif Require Import Prelude NpModel NpProofs CircleSpec UtilsModel UtilsProofs DescModel DescProofs
  DescSpec DescApi DescApi2 Desc2Model Desc2Proofs Desc5Proofs Desc6Proofs ArcProofs HypProofs Hyp2Proofs HypGofSpec HypGofProofs
  HypMultiModel HypMultiSpec HypMultiProofs HypMulti4Proofs.

(** * Roots of unity sum to zero *)
Lemma seq_turn (f : nat -> R) n : f (S n) = f 1%nat -> Rsum (map (fun r => f (S r)) (seq 1 n)) = Rsum (map f (seq 1 n)).
Proof.
  intros H. transitivity (Rsum (map f (seq 2 n))).
  - rewrite <- (seq_shift n 1), map_map. reflexivity.
  - destruct n as [|n]; [reflexivity|]. rewrite (seq_S n 2), map_app, Rsum_app. cbn [seq map].
    rewrite !Rsum_cons, Rsum_nil. replace (2 + n)%nat with (S (S n)) by lia. rewrite H. lra.
Qed.
Lemma roots_sum n : (2 <= n)%nat ->
  Rsum (map (fun r => cos (2 * PI / INR n * INR r)) (seq 1 n)) = 0 /\
  Rsum (map (fun r => sin (2 * PI / INR n * INR r)) (seq 1 n)) = 0.
Proof.
  intros Hn. set (dl := 2 * PI / INR n).
  assert (Ln : 2 <= INR n) by (change 2 with (INR 2); now apply le_INR).
  assert (D : dl * INR n = 2 * PI) by (unfold dl; field; lra).
  pose proof (seq_turn (fun r => cos (dl * INR r)) n) as HC. pose proof (seq_turn (fun r => sin (dl * INR r)) n) as HS.
  assert (T : dl * INR (S n) = dl * INR 1 + 2 * PI) by (rewrite S_INR; change (INR 1) with 1; lra).
  cbv beta in HC, HS.  rewrite T, cos_plus, cos_2PI, sin_2PI in HC. rewrite T, sin_plus, cos_2PI, sin_2PI in HS.
  specialize (HC ltac:(ring)). specialize (HS ltac:(ring)).
  rewrite (Rsum_map_ext _ (fun r => cos dl * cos (dl * INR r) + (- sin dl) * sin (dl * INR r))) in HC
    by (intros r _; rewrite S_INR, Rmult_plus_distr_l, Rmult_1_r, cos_plus; ring).
  rewrite (Rsum_map_ext _ (fun r => cos dl * sin (dl * INR r) + sin dl * cos (dl * INR r))) in HS
    by (intros r _; rewrite S_INR, Rmult_plus_distr_l, Rmult_1_r, sin_plus; ring).
  rewrite Rsum_map_plus, !Rsum_map_scal in HC, HS.
  set (C := Rsum (map (fun r => cos (dl * INR r)) (seq 1 n))) in *.
  set (S := Rsum (map (fun r => sin (dl * INR r)) (seq 1 n))) in *.
  assert (P : cos dl < 1).
  { assert (0 < dl <= PI).
    { pose proof PI_RGT_0. split; [apply Rdiv_lt_0_compat; lra|]. nra. }
    rewrite <- cos_0. apply cos_decreasing_1; lra. }
  pose proof (sin2_cos2 dl) as SC. unfold Rsqr in SC. set (c := cos dl) in *. set (s := sin dl) in *.
  assert (E1 : (C ^ 2 + S ^ 2) * (2 - 2 * c) = 0).
  { assert (X : (1 - c) * C + s * S = 0) by lra. assert (Y : (1 - c) * S - s * C = 0) by lra.
    replace ((C ^ 2 + S ^ 2) * (2 - 2 * c)) with (((1 - c) * C + s * S) ^ 2 + ((1 - c) * S - s * C) ^ 2
      + (C ^ 2 + S ^ 2) * (1 - (s * s + c * c))) by ring.
    rewrite X, Y, SC. ring. }
  apply Rmult_integral in E1. destruct E1 as [E1|E1]; [|lra]. nra.
Qed.

(** * Ranks *)
Lemma nth_at_most a : StronglySorted Rlt a -> map (fun x => at_most x a) a = seq 1 (length a).
Proof.
  induction 1 as [|b a S IH F]; [reflexivity|]. cbn [map length seq]. rewrite Forall_forall in F. f_equal.
  - cbn [at_most]. destruct (Rle_dec b b); [|lra]. now rewrite at_most_none.
  - rewrite <- seq_shift, <- IH, map_map. apply map_ext_in. intros x Hx. cbn [at_most].
    specialize (F x Hx). destruct (Rle_dec b x); [auto|lra].
Qed.
Lemma sorted_strict l : NoDup l -> StronglySorted Rlt (nsort l).
Proof. intros N. rewrite <- unique_NoDup by auto. apply unique_strict. Qed.
Lemma ranks_perm l : NoDup l -> Permutation (map (fun x => at_most x l) l) (seq 1 (length l)).
Proof.
  intros N. rewrite <- (sort_length l), <- (nth_at_most _ (sorted_strict l N)).
  rewrite (map_ext _ (fun x => at_most x (nsort l))) by (intros; apply at_most_perm, sort_perm).
  apply Permutation_map, sort_perm.
Qed.
Definition circ_rank (l : list R) (x : R) : R := 2 * PI / INR (length l) * INR (at_most x l).
Lemma rank_total l : NoDup l -> (2 <= length l)%nat ->
  Rsum (map cos (map (circ_rank l) l)) = 0 /\ Rsum (map sin (map (circ_rank l) l)) = 0.
Proof.
  intros N L. destruct (roots_sum (length l) L) as [C S].
  pose proof (ranks_perm l N) as P. rewrite !map_map. unfold circ_rank.
  split; [rewrite <- C|rewrite <- S].
  - rewrite <- (Rsum_perm _ _ (Permutation_map (fun r => cos (2 * PI / INR (length l) * INR r)) P)), map_map. reflexivity.
  - rewrite <- (Rsum_perm _ _ (Permutation_map (fun r => sin (2 * PI / INR (length l) * INR r)) P)), map_map. reflexivity.
Qed.
Lemma below_at_most x a : StronglySorted Rlt a -> In x a -> S (below x a) = at_most x a.
Proof.
  induction 1 as [|b a S IH F]; intros Hx; [easy|]. cbn [below at_most]. rewrite Forall_forall in F.
  destruct Hx as [->|Hx].
  - destruct (Rlt_dec x x); [lra|]. destruct (Rle_dec x x); [|lra].
    rewrite below_none, at_most_none; auto. intros y Hy. specialize (F y Hy). lra.
  - specialize (F x Hx). destruct (Rlt_dec b x); [|lra]. destruct (Rle_dec b x); [|lra]. now rewrite IH.
Qed.
Lemma forallb_one {A} (l : list (list A)) n : (forall q, In q l -> length q = n) ->
  forallb (fun q => Nat.eqb (length q) n) l = true.
Proof. intros H. apply forallb_forall. intros q Hq. apply Nat.eqb_eq. auto. Qed.
Lemma concat_single {A B} (f : A -> list B) (g : A -> B) l : (forall x, In x l -> f x = [g x]) -> concat (map f l) = map g l.
Proof. rewrite <- flat_map_concat_map. apply flat_map_single. Qed.
Lemma circrank_spec l s e N : NoDup l -> separated tol8 l -> cs_expand s = e -> (forall x, In x e -> In x l) ->
  get_circrank (unique l) s N = Ok (map (fun x => 2 * PI / N * INR (at_most x l)) e).
Proof.
  intros ND S E Sub. unfold get_circrank. rewrite E.
  assert (P : forall x, In x e -> positions isclose (unique l) x = [below x (unique l)]).
  { intros x Hx. apply (positions_sep tol8); auto. unfold tol8; lra. }
  destruct e as [|x e]; [reflexivity|]. cbn [map].
  rewrite (P x) by now left. cbn [length]. rewrite forallb_one.
  - rewrite <- (P x) by now left. change (positions isclose (unique l) x :: map (positions isclose (unique l)) e)
      with (map (positions isclose (unique l)) (x :: e)).
    rewrite (concat_single _ (fun x => below x (unique l))) by exact P. rewrite map_map. f_equal.
    change ((2 * PI / N * INR (at_most x l)) :: map (fun x => 2 * PI / N * INR (at_most x l)) e)
      with (map (fun x => 2 * PI / N * INR (at_most x l)) (x :: e)).
    apply map_ext_in. intros y Hy. f_equal. rewrite <- S_INR. f_equal.
    rewrite below_at_most; [|apply unique_strict|apply unique_in; auto].
    rewrite unique_NoDup by auto. symmetry. apply at_most_perm, sort_perm.
  - intros q Hq. apply in_map_iff in Hq. destruct Hq as (y & <- & Hy). rewrite P by now right. reflexivity.
Qed.
Lemma rank_power_vec p e : rank_power (map (fun x => 2 * PI / INR (length p) * INR (at_most x p)) e) = rank_vector p e ^ 2.
Proof. unfold rank_power, rank_vector. now rewrite resultant_sqr. Qed.

(** * Wheeler-Watson *)
Lemma all_see_nsum gs os cs : all_see gs os cs -> nsum (map cs_n cs) = length (concat os).
Proof. induction 1; simpl; auto. rewrite app_length, (sees_n _ _ _ H). lia. Qed.
Lemma all_see_flat gs os cs : all_see gs os cs -> flat_map cs_expand cs = concat os.
Proof. induction 1; simpl; auto. rewrite (sees_expand _ _ _ H). congruence. Qed.
Lemma all_see_ranks l N gs os cs : NoDup l -> separated tol8 l -> (forall g x, In g os -> In x g -> In x l) -> all_see gs os cs ->
  rmap (fun s => get_circrank (unique l) s N) cs =
  Ok (map (map (fun x => 2 * PI / N * INR (at_most x l))) os).
Proof.
  intros ND S Sub A. induction A as [|g o c gs os cs H A IH]; [reflexivity|]. cbn [rmap].
  rewrite (circrank_spec l c o N); auto; [|apply (sees_expand _ _ _ H)|intros x Hx; apply (Sub o); auto; now left].
  cbn [bind]. rewrite IH by (intros g' x Hg Hx; apply (Sub g'); auto; now right). reflexivity.
Qed.
Lemma wheeler_spec csf gs os : Forall2 tabulates gs os -> (2 <= length os)%nat -> NoDup (concat os) ->
  separated tol8 (concat os) ->
  wheeler_watson_test csf gs = Ok {| wh_W := wheeler_W os; wh_pval := csf (wheeler_W os) (2 * (length os - 1))%nat;
                                     wh_df := 2 * (length os - 1) |}.
Proof.
  intros T L ND S. destruct gs as [|g gs]; [inversion T; subst; simpl in L; lia|].
  destruct (coerce_samples_tab _ _ (fun H => nil_cons (eq_sym H)) T) as (cs & E & A).
  unfold wheeler_watson_test. rewrite E. cbn [bind].
  rewrite (all_see_nsum _ _ _ A), (all_see_flat _ _ _ A).
  rewrite (all_see_ranks (concat os) (INR (length (concat os))) (g :: gs) os cs) by
    (auto; intros g' x Hg Hx; apply in_concat; eauto).
  assert (LC : length cs = length os) by (clear -A; induction A; simpl; congruence).
  rewrite LC. cbn [bind].
  assert (W : match cs, map (map (fun x => 2 * PI / INR (length (concat os)) * INR (at_most x (concat os)))) os with
     | [s1; s2], r1 :: _ => Ok (2 * (INR (length (concat os)) - 1) * rank_power r1 / (INR (cs_n s1) * INR (cs_n s2)))
     | _ :: _ :: _ :: _, _ => Ok (Rsum (map2 (fun s r => rank_power r / INR (cs_n s)) cs
            (map (map (fun x => 2 * PI / INR (length (concat os)) * INR (at_most x (concat os)))) os)) * 2)
     | _, _ => Err ValueError end = Ok (wheeler_W os)).
  { assert (G : Rsum (map2 (fun s r => rank_power r / INR (cs_n s)) cs
            (map (map (fun x => 2 * PI / INR (length (concat os)) * INR (at_most x (concat os)))) os)) =
            Rsum (map (fun g => rank_vector (concat os) g ^ 2 / INR (length g)) os)).
    { generalize (concat os) as p. clear -A. intros p.
      induction A as [|g1 o c gs1 os1 cs1 H A IH]; [reflexivity|]. unfold map2 in *. cbn [map combine].
      rewrite !Rsum_cons, IH. cbn [fst snd]. rewrite rank_power_vec, (sees_n _ _ _ H). reflexivity. }
    destruct os as [|a [|b [|c os]]]; [simpl in L; lia|simpl in L; lia| |].
    - inversion A as [|? ? c0 ? ? ? S0 A1]; subst. inversion A1 as [|? ? c1 ? ? ? S1 A2]; subst. inversion A2; subst.
      cbn [map]. rewrite rank_power_vec, (sees_n _ _ _ S0), (sees_n _ _ _ S1). reflexivity.
    - destruct cs as [|c0 [|c1 [|c2 cs]]]; simpl in LC; try lia. rewrite G. unfold wheeler_W. f_equal. ring. }
  rewrite W. reflexivity.
Qed.
Lemma rank_vector_nonneg p g : 0 <= rank_vector p g.
Proof. apply resultant_nonneg. Qed.
Lemma wheeler_nonneg os : (2 <= length os)%nat -> Forall (fun g => g <> []) os -> 0 <= wheeler_W os.
Proof.
  intros L H. unfold wheeler_W. set (p := concat os).
  assert (P : 1 <= INR (length p)).
  { change 1 with (INR 1). apply le_INR. unfold p. destruct os as [|[|x g] os]; simpl in *; try lia.
    inversion H; subst; congruence. }
  assert (G : 0 <= Rsum (map (fun g => rank_vector p g ^ 2 / INR (length g)) os)).
  { apply Rsum_map_nonneg. intros g Hg. rewrite Forall_forall in H. specialize (H g Hg).
    apply Rdiv_ge0; [nra|]. apply lt_0_INR. destruct g; [congruence|simpl; lia]. }
  destruct os as [|a [|b [|c os]]]; try lra.
  inversion H as [|? ? Ha H1]; subst. inversion H1 as [|? ? Hb _]; subst.
  apply Rdiv_ge0.
  - pose proof (pow2_ge_0 (rank_vector p a)). nra.
  - apply Rmult_lt_0_compat; apply lt_0_INR; [destruct a|destruct b]; try congruence; simpl; lia.
Qed.
Lemma rank_vector_perm_pool p p' g : Permutation p p' -> rank_vector p' g = rank_vector p g.
Proof.
  intros P. unfold rank_vector. rewrite (Permutation_length P). f_equal. apply map_ext. intros x.
  now rewrite (at_most_perm x _ _ P).
Qed.
Lemma rank_vector_compl a b : NoDup (a ++ b) -> (2 <= length (a ++ b))%nat ->
  rank_vector (a ++ b) b = rank_vector (a ++ b) a.
Proof.
  intros N L. destruct (rank_total _ N L) as [C S]. rewrite map_app, map_app, Rsum_app in C, S.
  unfold rank_vector, resultant, circ_rank in *. f_equal.
  set (f := fun x => 2 * PI / INR (length (a ++ b)) * INR (at_most x (a ++ b))) in *.
  replace (Rsum (map cos (map f b))) with (- Rsum (map cos (map f a))) by lra.
  replace (Rsum (map sin (map f b))) with (- Rsum (map sin (map f a))) by lra. ring.
Qed.
Lemma wheeler_swap a b : a <> [] -> b <> [] -> NoDup (a ++ b) -> wheeler_W [b; a] = wheeler_W [a; b].
Proof.
  intros Na Nb ND. unfold wheeler_W. cbn [concat]. rewrite !app_nil_r.
  assert (L : (2 <= length (a ++ b))%nat) by (rewrite app_length; destruct a; destruct b; try congruence; simpl; lia).
  rewrite (rank_vector_perm_pool (a ++ b) (b ++ a)) by apply Permutation_app_comm.
  rewrite rank_vector_compl by auto. rewrite !app_length, (Nat.add_comm (length b)), (Rmult_comm (INR (length b))).
  reflexivity.
Qed.
(** Reordering more than two samples. *)
Lemma wheeler_perm os os' : Permutation os os' -> (2 <= length os)%nat -> Forall (fun g => g <> []) os -> NoDup (concat os) ->
  wheeler_W os' = wheeler_W os.
Proof.
  intros P L NE ND. pose proof (Permutation_length P) as PL.
  assert (G : Rsum (map (fun g => rank_vector (concat os') g ^ 2 / INR (length g)) os') =
              Rsum (map (fun g => rank_vector (concat os) g ^ 2 / INR (length g)) os)).
  { rewrite <- (Rsum_perm _ _ (Permutation_map (fun g => rank_vector (concat os') g ^ 2 / INR (length g)) P)).
    apply Rsum_map_ext. intros g _. rewrite (rank_vector_perm_pool (concat os) (concat os')); auto.
    apply concat_perm, P. }
  destruct os as [|a [|b [|c os]]]; simpl in L; try lia.
  - assert (Q : os' = [a; b] \/ os' = [b; a]) by (apply Permutation_length_2_inv; exact P).
    destruct Q as [->| ->]; auto. inversion NE as [|? ? Ha H1]; subst. inversion H1 as [|? ? Hb _]; subst.
    apply wheeler_swap; auto. cbn [concat] in ND. now rewrite app_nil_r in ND.
  - destruct os' as [|a' [|b' [|c' os']]]; simpl in PL; try lia. unfold wheeler_W. rewrite G. reflexivity.
Qed.
(** Turning all observations. *)
Lemma rank_vector_turn t p g : p <> [] -> on_turn p -> on_turn g ->
  rank_vector (map (turn_w t) p) (map (turn_w t) g) = rank_vector p g.
Proof.
  intros Np Hp Hg. unfold rank_vector. rewrite map_length, map_map.
  assert (L : INR (length p) <> 0) by (apply not_0_INR; destruct p; [congruence|discriminate]).
  apply turned_obs_resultant with (- (2 * PI / INR (length p) * INR (below (turn_c t) p))).
  exists (map (fun x => 2 * PI / INR (length p) * INR (at_most x p)) g). split; [apply Permutation_refl|].
  induction Hg as [|x g Hx Hg IH]; constructor; auto.
  rewrite turn_at_most by auto. destruct (Rlt_dec x (turn_c t)).
  - exists (1)%Z. field. exact L.
  - exists 0%Z. field. exact L.
Qed.
Lemma rank_vector_perm p g g' : Permutation g g' -> rank_vector p g' = rank_vector p g.
Proof.
  intros P. unfold rank_vector, resultant.
  rewrite (Rsum_perm _ _ (Permutation_map cos (Permutation_map (fun x => 2 * PI / INR (length p) * INR (at_most x p)) P))),
    (Rsum_perm _ _ (Permutation_map sin (Permutation_map (fun x => 2 * PI / INR (length p) * INR (at_most x p)) P))).
  reflexivity.
Qed.
Lemma turned_all t os os' : Forall2 (turned_obs t) os os' -> Forall on_turn os' ->
  exists ls, Forall2 (@Permutation R) os ls /\ os' = map (map (turn_w t)) ls.
Proof.
  induction 1 as [|a a' os os' T F IH]; intros H; [exists []; split; [constructor|reflexivity]|].
  inversion H as [|? ? H1 H2]; subst. destruct (IH H2) as (ls & P & ->).
  destruct (turned_is_map _ _ _ T H1) as (l & Pl & ->). exists (l :: ls). split; [constructor; auto|reflexivity].
Qed.
Lemma wheeler_parts os os' (h : list R -> list R -> Prop) : Forall2 h os os' ->
  (forall g g', h g g' -> In g os -> length g' = length g /\ rank_vector (concat os') g' = rank_vector (concat os) g) ->
  length (concat os') = length (concat os) -> wheeler_W os' = wheeler_W os.
Proof.
  intros F H L.
  assert (G : Rsum (map (fun g => rank_vector (concat os') g ^ 2 / INR (length g)) os') =
              Rsum (map (fun g => rank_vector (concat os) g ^ 2 / INR (length g)) os)).
  { revert H. generalize (concat os) as p, (concat os') as p'. clear L. intros p p'.
    induction F as [|g g' os os' Hg F IH]; intros H; [reflexivity|]. cbn [map]. rewrite !Rsum_cons.
    rewrite IH by (intros; apply H; auto; now right). destruct (H g g' Hg ltac:(now left)) as [-> ->]. reflexivity. }
  destruct F as [|a a' os os' Ha F]; [reflexivity|]. destruct F as [|b b' os os' Hb F]; [|destruct F as [|c c' os os' Hc F]].
  - unfold wheeler_W. now rewrite G.
  - unfold wheeler_W. rewrite L. destruct (H a a' Ha ltac:(now left)) as [-> ->].
    destruct (H b b' Hb ltac:(right; now left)) as [-> _]. reflexivity.
  - unfold wheeler_W. now rewrite G.
Qed.
Lemma wheeler_turned t os os' : Forall2 (turned_obs t) os os' -> Forall on_turn os -> Forall on_turn os' ->
  Forall (fun g => g <> []) os -> wheeler_W os' = wheeler_W os.
Proof.
  intros F H H' NE. destruct (turned_all t os os' F H') as (ls & P & ->).
  assert (PC : Permutation (concat os) (concat ls)).
  { clear -P. induction P; simpl; auto. now apply Permutation_app. }
  assert (OT : on_turn (concat ls)).
  { unfold on_turn. rewrite <- PC. clear -H. induction H as [|g os Hg H IH]; simpl; [constructor|].
    apply Forall_app; auto. }
  destruct os as [|o os]; [inversion P; subst; reflexivity|].
  assert (NC : concat ls <> []).
  { intros E. rewrite E in PC. apply Permutation_sym, Permutation_nil in PC. inversion NE; subst. destruct o; [congruence|discriminate]. }
  set (oo := o :: os) in *.
  apply wheeler_parts with (fun g g' => exists l, Permutation g l /\ g' = map (turn_w t) l).
  - clear -P. induction P; simpl; constructor; eauto.
  - intros g g' (l & Pl & ->) Hg. rewrite map_length, (Permutation_length Pl). split; auto.
    rewrite <- concat_map. rewrite rank_vector_turn; auto.
    + rewrite (rank_vector_perm_pool (concat oo) (concat ls)) by auto. now apply rank_vector_perm.
    + unfold on_turn. rewrite <- Pl. rewrite Forall_forall in H. apply H, Hg.
  - rewrite <- concat_map, map_length. symmetry. apply Permutation_length, PC.
Qed.
(** With ties: the two samples [0; 0] and [1]. *)
Lemma isclose_far x y : / 100000000 + / 100000 * Rabs y < Rabs (x - y) -> isclose x y = false.
Proof. intros H. unfold isclose, isclose_tol. destruct (Rleb_spec (Rabs (x - y)) (/ 100000000 + / 100000 * Rabs y)); auto. lra. Qed.
Lemma unique_001 : unique [0; 0; 1] = [0; 1] /\ unique [1; 0; 0] = [0; 1].
Proof.
  assert (S : nsort [0; 0; 1] = [0; 0; 1]).
  { apply sort_id. repeat constructor; lra. }
  assert (S' : nsort [1; 0; 0] = [0; 0; 1]).
  { rewrite <- S. apply sort_perm_eq. apply perm_trans with [0; 1; 0]; [apply perm_swap|apply perm_skip, perm_swap]. }
  unfold unique. rewrite S, S'. rewrite !dedup_cons.
  destruct (Reqb_spec 0 0); [|lra]. destruct (Reqb_spec 0 1); [lra|]. split; reflexivity.
Qed.
Lemma wheeler_ties_refuted csf : exists a b t t',
  wheeler_watson_test csf [(a, None); (b, None)] = Ok t /\ wheeler_watson_test csf [(b, None); (a, None)] = Ok t' /\
  wh_W t = 8 /\ wh_W t' = 2.
Proof.
  exists [0; 0], [1].
  assert (Ta : tabulates ([0; 0], None) [0; 0]) by (apply tab_plain; discriminate).
  assert (Tb : tabulates ([1], None) [1]) by (apply tab_plain; discriminate).
  assert (T : Forall2 tabulates [([0; 0], None); ([1], None)] [[0; 0]; [1]]) by (constructor; [auto|constructor; [auto|constructor]]).
  assert (T' : Forall2 tabulates [([1], None); ([0; 0], None)] [[1]; [0; 0]]) by (constructor; [auto|constructor; [auto|constructor]]).
  destruct (coerce_samples_tab _ _ (fun H => nil_cons (eq_sym H)) T) as (cs & E & A).
  destruct (coerce_samples_tab _ _ (fun H => nil_cons (eq_sym H)) T') as (cs' & E' & A').
  destruct unique_001 as [U1 U2].
  assert (C10 : isclose 1 0 = false) by (apply isclose_far; rewrite Rabs_R0, Rabs_pos_eq; lra).
  assert (C01 : isclose 0 1 = false) by (apply isclose_far; rewrite Rabs_R1, Rabs_left; lra).
  assert (P0 : positions isclose [0; 1] 0 = [0%nat]).
  { rewrite !positions_cons, C10, isclose_refl. reflexivity. }
  assert (P1 : positions isclose [0; 1] 1 = [1%nat]).
  { rewrite !positions_cons, C01, isclose_refl. reflexivity. }
  inversion A as [|? ? c0 ? ? ? S0 A1]; subst. inversion A1 as [|? ? c1 ? ? ? S1 A2]; subst. inversion A2; subst.
  inversion A' as [|? ? d0 ? ? ? S0' A1']; subst. inversion A1' as [|? ? d1 ? ? ? S1' A2']; subst. inversion A2'; subst.
  assert (R0 : forall s N, cs_expand s = [0; 0] -> get_circrank [0; 1] s N = Ok [2 * PI / N * (INR 0 + 1); 2 * PI / N * (INR 0 + 1)]).
  { intros s N Es. unfold get_circrank. rewrite Es. cbn [map]. rewrite P0. reflexivity. }
  assert (R1 : forall s N, cs_expand s = [1] -> get_circrank [0; 1] s N = Ok [2 * PI / N * (INR 1 + 1)]).
  { intros s N Es. unfold get_circrank. rewrite Es. cbn [map]. rewrite P1. reflexivity. }
  unfold wheeler_watson_test. rewrite E, E'. cbn [bind flat_map].
  rewrite (sees_expand _ _ _ S0), (sees_expand _ _ _ S1), (sees_expand _ _ _ S0'), (sees_expand _ _ _ S1').
  cbn [app]. rewrite U1, U2. cbn [rmap map nsum].
  rewrite (R0 c0), (R1 c1), (R1 d0), (R0 d1) by
    first [apply (sees_expand _ _ _ S0)|apply (sees_expand _ _ _ S1)|apply (sees_expand _ _ _ S0')|apply (sees_expand _ _ _ S1')].
  cbn [bind]. rewrite (sees_n _ _ _ S0), (sees_n _ _ _ S1), (sees_n _ _ _ S0'), (sees_n _ _ _ S1').
  assert (Q : forall x, rank_power [x; x] = 4).
  { intros x. unfold rank_power. cbn [map]. rewrite !Rsum_cons, !Rsum_nil. pose proof (sin2_cos2 x) as H. unfold Rsqr in H. nra. }
  assert (Q1 : forall x, rank_power [x] = 1).
  { intros x. unfold rank_power. cbn [map]. rewrite !Rsum_cons, !Rsum_nil. pose proof (sin2_cos2 x) as H. unfold Rsqr in H. nra. }
  eexists _, _. split; [reflexivity|]. split; [reflexivity|]. cbn [wh_W]. rewrite Q, Q1. cbn [length Nat.add].
  replace (INR 3) with 3 by (simpl; lra). replace (INR 2) with 2 by (simpl; lra). replace (INR 1) with 1 by (simpl; lra).
  change (nsum [2%nat; 1%nat]) with 3%nat. change (nsum [1%nat; 2%nat]) with 3%nat.
  replace (INR 3) with 3 by (simpl; lra). split; field.
Qed.
