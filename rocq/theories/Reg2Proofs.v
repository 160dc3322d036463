(** Inverses and least squares: routines that meet the contracts, and what the contracts give. *)
From Verif Require Import Prelude NpModel UtilsModel RegModel CircleSpec RegSpec RegProofs.

Lemma entry_ent A i j : entry A i j = ent A i j.
Proof. reflexivity. Qed.
Lemma unit_vec_nth n i j : (i < n)%nat -> nth i (vec_of n (fun k => if Nat.eqb k j then 1 else 0)) 0 = if Nat.eqb i j then 1 else 0.
Proof. intros H. now rewrite nth_vec_of. Qed.
Lemma inv_exists : exists inv, right_inv inv.
Proof.
  destruct solve_exists as [solve Hs].
  set (e n j := vec_of n (fun k => if Nat.eqb k j then 1 else 0)).
  exists (fun A => let n := length A in
    if forallb (fun j => match solve A (e n j) with Some _ => true | None => false end) (seq 0 n)
    then Some (mat_of n n (fun k j => nth k (match solve A (e n j) with Some x => x | None => [] end) 0)) else None).
  intros n A HA. pose proof HA as [Hn Hr]. cbv zeta. rewrite Hn.
  destruct (forallb _ (seq 0 n)) eqn:E.
  - split; [apply shaped_mat_of|]. intros i j Hi Hj. rewrite forallb_forall in E. specialize (E j). rewrite in_seq in E. specialize (E ltac:(lia)).
    specialize (Hs n A (e n j) HA (vec_of_length _ _)). destruct (solve A (e n j)) as [x|] eqn:Ex; [|discriminate]. destruct Hs as [Hx Hs].
    specialize (Hs i Hi). unfold e in Hs at 1. rewrite unit_vec_nth in Hs by auto. rewrite <- Hs.
    assert (Hri : length (nth i A []) = n) by (apply Hr, nth_In; lia).
    rewrite (inner_sum n) by exact Hri. apply sumn_ext. intros k Hk. rewrite !entry_ent, ent_mat_of by auto. rewrite Ex. reflexivity.
  - rewrite <- not_true_iff_false in E.
    assert (D : forall m, (m <= n)%nat -> (forall j, (j < m)%nat -> solve A (e n j) <> None) \/ (exists j, (j < n)%nat /\ solve A (e n j) = None)).
    { induction m as [|m IH]; intros Hm; [left; intros; lia|]. destruct IH as [IH|IH]; [lia| |now right].
      destruct (solve A (e n m)) eqn:Em; [left|right; exists m; split; [lia|exact Em]].
      intros j Hj. destruct (Nat.eq_dec j m) as [->|]; [congruence|apply IH; lia]. }
    destruct (D n (le_n n)) as [D'|(j & Hj & D')].
    + exfalso. apply E. apply forallb_forall. intros j Hj. apply in_seq in Hj. specialize (D' j ltac:(lia)). destruct (solve A (e n j)); [reflexivity|congruence].
    + specialize (Hs n A (e n j) HA (vec_of_length _ _)). rewrite D' in Hs. exact Hs.
Qed.

(** A least-squares solution by orthogonalisation; the data are rows with their responses. *)
Definition lc (u v : list R) (c : R) : list R := vec_of (length u) (fun j => 1 * nth j u 0 + c * nth j v 0).
Lemma lc_inner r u v c : length u = length v -> inner r (lc u v c) = inner r u + c * inner r v.
Proof. intros H. unfold lc. rewrite (inner_comb (length u)) by auto. ring. Qed.
Lemma lc_length u v c : length (lc u v c) = length u.
Proof. apply vec_of_length. Qed.
Lemma orth_exists m : forall l : list (list R * R), (forall e, In e l -> length (fst e) = m) ->
  {b | length b = m /\ forall b', length b' = m -> Rsum (map (fun e => (snd e - inner (fst e) b) * inner (fst e) b') l) = 0}.
Proof.
  induction m as [|m IH]; intros l Hl.
  - exists []. split; [reflexivity|]. intros [|] H; [|discriminate]. rewrite (Rsum_map_ext _ (fun _ => 0)).
    + rewrite Rsum_map_const. lra.
    + intros e _. destruct (fst e); cbn; lra.
  - set (h := map (fun e : list R * R => (tl (fst e), snd e)) l). set (k := map (fun e : list R * R => (tl (fst e), nth 0 (fst e) 0)) l).
    destruct (IH h) as (e & He & Oe).
    { intros x Hx. apply in_map_iff in Hx. destruct Hx as (y & <- & Hy). cbn [fst]. specialize (Hl y Hy). destruct (fst y); [discriminate|]. now injection Hl. }
    destruct (IH k) as (d & Hd & Od).
    { intros x Hx. apply in_map_iff in Hx. destruct Hx as (y & <- & Hy). cbn [fst]. specialize (Hl y Hy). destruct (fst y); [discriminate|]. now injection Hl. }
    set (yp := fun x : list R * R => snd x - inner (tl (fst x)) e). set (cp := fun x : list R * R => nth 0 (fst x) 0 - inner (tl (fst x)) d).
    assert (Oy : forall b', length b' = m -> Rsum (map (fun x => yp x * inner (tl (fst x)) b') l) = 0).
    { intros b' Hb'. specialize (Oe b' Hb'). unfold h in Oe. rewrite map_map in Oe. exact Oe. }
    assert (Oc : forall b', length b' = m -> Rsum (map (fun x => cp x * inner (tl (fst x)) b') l) = 0).
    { intros b' Hb'. specialize (Od b' Hb'). unfold k in Od. rewrite map_map in Od. exact Od. }
    set (s := Rsum (map (fun x => cp x * cp x) l)). set (t := Rsum (map (fun x => yp x * cp x) l)).
    assert (Hb0 : {b0 | t - b0 * s = 0}).
    { destruct (Req_EM_T s 0) as [Z|Z]; [exists 0|exists (t / s); field; exact Z].
      assert (forall x, In x l -> cp x * cp x = 0) by (apply (Rsum_map_0 (fun x => cp x * cp x)); [intros; nra|exact Z]).
      unfold t. rewrite (Rsum_map_ext _ (fun _ => 0)); [rewrite Rsum_map_const; lra|]. intros x Hx. specialize (H x Hx). assert (cp x = 0) by nra. rewrite H0. ring. }
    destruct Hb0 as [b0 Hb0]. exists (b0 :: lc e d (- b0)). split; [cbn [length]; rewrite lc_length; congruence|].
    intros [|a b'] Hb'; [discriminate|]. injection Hb' as Hb'.
    transitivity (a * (t - b0 * s) + (Rsum (map (fun x => yp x * inner (tl (fst x)) (lc b' d a)) l) - b0 * Rsum (map (fun x => cp x * inner (tl (fst x)) (lc b' d a)) l))).
    + unfold t, s. rewrite <- !Rsum_map_scal, <- !Rsum_map_minus, <- Rsum_map_scal, <- Rsum_map_plus. apply Rsum_map_ext. intros x Hx.
      specialize (Hl x Hx). rewrite (lc_inner _ b' d) by congruence. unfold yp, cp. destruct (fst x) as [|r0 r]; [discriminate|].
      cbn [tl nth inner]. rewrite (lc_inner _ e d) by congruence. ring.
    + rewrite Hb0, Oy, Oc by (rewrite lc_length; exact Hb'). ring.
Qed.

(** The residuals of a least-squares fit are orthogonal to the columns, and conversely. *)
Definition rss (l : list (list R * R)) (b : list R) : R := Rsum (map (fun e => (snd e - inner (fst e) b) ^ 2) l).
Lemma rss_shift l b d c : length b = length d ->
  rss l (lc b d c) = rss l b - 2 * c * Rsum (map (fun e => (snd e - inner (fst e) b) * inner (fst e) d) l) + c ^ 2 * Rsum (map (fun e => inner (fst e) d ^ 2) l).
Proof.
  intros H. unfold rss. rewrite <- !Rsum_map_scal, <- Rsum_map_minus, <- Rsum_map_plus. apply Rsum_map_ext. intros e _. rewrite lc_inner by auto. ring.
Qed.
Lemma quad_zero a s : 0 <= s -> (forall c, 0 <= - 2 * c * a + c ^ 2 * s) -> a = 0.
Proof.
  intros Hs H. destruct (Req_dec a 0) as [E|E]; [exact E|exfalso].
  specialize (H (a / (s + 1))). assert (0 < s + 1) by lra. assert (E2 : -2 * (a / (s + 1)) * a + (a / (s + 1)) ^ 2 * s = - (a ^ 2 * (s + 2)) / (s + 1) ^ 2) by (field; lra).
  rewrite E2 in H. assert (0 < a ^ 2 * (s + 2) / (s + 1) ^ 2).
  { apply Rdiv_lt_0_compat; [|apply pow_lt; lra]. apply Rmult_lt_0_compat; [nra|lra]. }
  unfold Rdiv in *. lra.
Qed.
Lemma lsq_orth l b : (forall b', length b' = length b -> rss l b <= rss l b') ->
  forall d, length d = length b -> Rsum (map (fun e => (snd e - inner (fst e) b) * inner (fst e) d) l) = 0.
Proof.
  intros H d Hd. apply (quad_zero _ (Rsum (map (fun e => inner (fst e) d ^ 2) l))).
  - apply Rsum_map_nonneg. intros e _. apply pow2_ge_0.
  - intros c. specialize (H (lc b d c) (lc_length _ _ _)). rewrite rss_shift in H by auto. lra.
Qed.
Lemma orth_lsq l b b' : length b' = length b ->
  (forall d, length d = length b -> Rsum (map (fun e => (snd e - inner (fst e) b) * inner (fst e) d) l) = 0) ->
  rss l b' = rss l b + Rsum (map (fun e => (inner (fst e) b' - inner (fst e) b) ^ 2) l).
Proof.
  intros Hl H. specialize (H (lc b' b (-1)) ltac:(rewrite lc_length; exact Hl)).
  unfold rss. rewrite <- Rsum_map_plus.
  assert (E : Rsum (map (fun e => (snd e - inner (fst e) b') ^ 2) l) =
    Rsum (map (fun e => (snd e - inner (fst e) b) ^ 2 + (inner (fst e) b' - inner (fst e) b) ^ 2) l) - 2 * Rsum (map (fun e => (snd e - inner (fst e) b) * inner (fst e) (lc b' b (-1))) l)).
  { rewrite <- Rsum_map_scal, <- Rsum_map_minus. apply Rsum_map_ext. intros e _. rewrite lc_inner by auto. ring. }
  rewrite E, H. ring.
Qed.
Lemma sqdist_rss A y b : length y = length A -> sqdist y (map (fun r => inner r b) A) = rss (combine A y) b.
Proof.
  intros H. unfold sqdist, rss. revert y H. induction A as [|r A IH]; intros [|v y] H; try discriminate; [reflexivity|].
  cbn [map combine fst snd]. rewrite !Rsum_cons, IH by (now injection H). reflexivity.
Qed.
Lemma combine_rows n m A (y : list R) : shaped n m A -> forall e, In e (combine A y) -> length (fst e) = m.
Proof. intros [_ H] [r c] He. apply in_combine_l in He. now apply H. Qed.
Lemma lstsq_exists : exists lstsq, right_lstsq lstsq.
Proof.
  assert (D : forall (A : list (list R)) (y : list R), {b | forall n m, shaped n m A -> length y = n -> (0 < n)%nat -> length b = m /\
     forall b', length b' = m -> Rsum (map (fun e => (snd e - inner (fst e) b) * inner (fst e) b') (combine A y)) = 0}).
  { intros A y. destruct (forallb (fun e => Nat.eqb (length (fst e)) (length (hd [] A))) (combine A y)) eqn:E.
    - destruct (orth_exists (length (hd [] A)) (combine A y)) as (b & Hb & Ho).
      { intros e He. rewrite forallb_forall in E. apply Nat.eqb_eq. now apply E. }
      exists b. intros n m [Hn Hm] Hy Hp. assert (length (hd [] A) = m) as <-; [|split; auto]. apply Hm. destruct A; [cbn in Hn; lia|now left].
    - exists []. intros n m HA Hy Hp. exfalso. rewrite <- not_true_iff_false in E. apply E. apply forallb_forall. intros e He. apply Nat.eqb_eq.
      rewrite (combine_rows n m A y HA e He). destruct HA as [Hn Hm]. symmetry. apply Hm. destruct A; [cbn in Hn; lia|now left]. }
  exists (fun A y => proj1_sig (D A y)). intros n m A y Hp HA Hy.
  destruct (D A y) as [b Hb]. cbn [proj1_sig]. destruct (Hb n m HA Hy Hp) as [Hl Ho]. split; [exact Hl|].
  intros b' Hb'. destruct HA as [Hn _]. rewrite !sqdist_rss by congruence. rewrite (orth_lsq (combine A y) b b'); [|congruence|intros d Hd; apply Ho; congruence].
  assert (0 <= Rsum (map (fun e => (inner (fst e) b' - inner (fst e) b) ^ 2) (combine A y))); [|lra]. apply Rsum_map_nonneg. intros e _. apply pow2_ge_0.
Qed.

(** What a least-squares routine returns is a projection. *)
Lemma lstsq_orth lstsq n m A y : right_lstsq lstsq -> (0 < n)%nat -> shaped n m A -> length y = n ->
  length (lstsq A y) = m /\ forall d, length d = m -> Rsum (map (fun e => (snd e - inner (fst e) (lstsq A y)) * inner (fst e) d) (combine A y)) = 0.
Proof.
  intros H Hn HA Hy. destruct (H n m A y Hn HA Hy) as [Hl Hmin]. split; [exact Hl|]. intros d Hd. destruct HA as [HA _].
  apply (lsq_orth (combine A y)); [|congruence]. intros b' Hb'. rewrite <- !sqdist_rss by congruence. apply Hmin. congruence.
Qed.
