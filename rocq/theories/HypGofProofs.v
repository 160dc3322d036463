(** Lemmas about Kuiper, Watson and Rao statistics. *)
From Verif Require Import Prelude NpModel NpProofs CircleSpec UtilsModel UtilsProofs
  DescModel DescProofs DescSpec DescApi Desc2Model Desc2Spec ArcProofs Desc3Proofs Desc6Proofs
  HypModel HypSpec HypProofs HypGofModel HypGofSpec.
From Coq Require Import Sorted.

(** ** Deviations from a regular grid *)
Fixpoint devs (i h : R) (l : list R) : list R :=
  match l with [] => [] | x :: t => (x - i * h) :: devs (i + 1) h t end.
Lemma devs_len i h l : length (devs i h l) = length l.
Proof. revert i. induction l; intros; simpl; auto. Qed.
Lemma devs_app i h a b : devs i h (a ++ b) = devs i h a ++ devs (i + INR (length a)) h b.
Proof.
  revert i. induction a as [|x a IH]; intros i; [simpl; now rewrite Rplus_0_r|].
  cbn [app devs length]. rewrite IH, S_INR. cbn [app]. do 2 f_equal. f_equal. ring.
Qed.
Lemma devs_idx i k h l : devs (i + k) h l = map (fun d => d + - (k * h)) (devs i h l).
Proof.
  revert i. induction l as [|x l IH]; intros i; [reflexivity|]. cbn [devs map]. f_equal; [ring|].
  replace (i + k + 1) with (i + 1 + k) by ring. apply IH.
Qed.
Lemma devs_shift i h c l : devs i h (map (fun x => x + c) l) = map (fun d => d + c) (devs i h l).
Proof. revert i. induction l as [|x l IH]; intros i; [reflexivity|]. cbn [devs map]. f_equal; [ring|apply IH]. Qed.
Lemma map_idx (g : R -> R -> R) l k :
  map (fun p => g (fst p) (snd p)) (combine (map INR (seq k (length l))) l)
  = map (fun p => g (fst p) (snd p)) (combine (map (fun j => INR k + INR j) (seq 0 (length l))) l).
Proof.
  f_equal. f_equal. rewrite <- (Nat.add_0_r k) at 1. generalize 0%nat as j. generalize (length l) as n.
  induction n as [|n IH]; intros j; [reflexivity|]. cbn [seq map]. f_equal; [apply plus_INR|].
  replace (S (k + j)) with (k + S j)%nat by lia. apply IH.
Qed.
(** Any function of the deviation, written with explicit indices. *)
Lemma idx_devs (g : R -> R) h c l k :
  map (fun p => g (snd p * c - fst p * h)) (combine (map INR (seq k (length l))) l)
  = map g (devs (INR k) h (map (fun x => x * c) l)).
Proof.
  revert k. induction l as [|x l IH]; intros k; [reflexivity|]. cbn [length seq map combine fst snd devs]. f_equal.
  rewrite IH, S_INR. reflexivity.
Qed.

Lemma idx_devs' (F : R * R -> R) (g : R -> R) h c l k : (forall p, F p = g (snd p * c - fst p * h)) ->
  map F (combine (map INR (seq k (length l))) l) = map g (devs (INR k) h (map (fun x => x * c) l)).
Proof. intros H. rewrite <- idx_devs. apply map_ext, H. Qed.

Definition dev (s : list R) : list R := devs 1 (TP / INR (length s)) (nsort s).
Lemma dev_len s : length (dev s) = length s.
Proof. unfold dev. now rewrite devs_len, sort_length. Qed.

(** ** Rotation *)
Lemma split_at (s : list R) x : StronglySorted Rle s -> exists k, (k <= length s)%nat /\
  Forall (fun a => a < x) (firstn k s) /\ Forall (fun a => x <= a) (skipn k s).
Proof.
  induction s as [|a s IH]; intros H; [exists 0%nat; simpl; auto|].
  apply StronglySorted_inv in H. destruct H as [Hs Ha].
  destruct (Rlt_le_dec a x) as [L|L].
  - destruct (IH Hs) as (k & Hk & F1 & F2). exists (S k). cbn [firstn skipn length]. repeat split; [lia| |exact F2].
    constructor; auto.
  - exists 0%nat. cbn [firstn skipn]. repeat split; [lia|constructor|]. constructor; [exact L|].
    rewrite Forall_forall in *. intros y Hy. specialize (Ha y Hy). lra.
Qed.
Lemma sorted_map_add (s : list R) c : StronglySorted Rle s -> StronglySorted Rle (map (fun x => x + c) s).
Proof.
  induction s as [|a s IH]; intros H; [constructor|]. apply StronglySorted_inv in H. destruct H as [Hs Ha].
  cbn [map]. constructor; [apply IH, Hs|]. rewrite Forall_forall in *. intros y Hy. apply in_map_iff in Hy.
  destruct Hy as (z & <- & Hz). specialize (Ha z Hz). lra.
Qed.
Lemma sorted_app (a b : list R) : StronglySorted Rle a -> StronglySorted Rle b ->
  (forall x y, In x a -> In y b -> x <= y) -> StronglySorted Rle (a ++ b).
Proof.
  induction a as [|x a IH]; intros Ha Hb H; [exact Hb|]. apply StronglySorted_inv in Ha. destruct Ha as [Ha Fx].
  cbn [app]. constructor.
  - apply IH; auto. intros y z Hy Hz. apply H; [right; exact Hy|exact Hz].
  - apply Forall_app. split; [exact Fx|]. apply Forall_forall. intros y Hy. apply H; [left; reflexivity|exact Hy].
Qed.
Lemma sorted_split (s : list R) k : StronglySorted Rle s ->
  StronglySorted Rle (firstn k s) /\ StronglySorted Rle (skipn k s).
Proof.
  revert s. induction k as [|k IH]; intros s H; [split; [constructor|exact H]|].
  destruct s as [|a s]; [split; constructor|]. apply StronglySorted_inv in H. destruct H as [Hs Ha].
  destruct (IH s Hs) as [H1 H2]. cbn [firstn skipn]. split; [|exact H2]. constructor; [exact H1|].
  rewrite Forall_forall in *. intros y Hy. apply Ha. rewrite <- (firstn_skipn k s). apply in_or_app. auto.
Qed.
Lemma perm_map_sort (f : R -> R) s : Permutation (map f (nsort s)) (map f s).
Proof. apply Permutation_map, Permutation_sym, sort_perm. Qed.
(** The sorted wrapped rotation of a sample in [0, TP) is a cyclic shift of the sorted sample. *)
Lemma wrap_rot0 s t : (forall a, In a s -> 0 <= a < TP) -> exists k c, (k <= length s)%nat /\
  nsort (map (fun a => pymod (a + t) TP) s)
  = map (fun x => x + c) (skipn k (nsort s) ++ map (fun x => x + TP) (firstn k (nsort s))).
Proof.
  intros H. pose proof TP_pos as Hp. set (t0 := pymod t TP).
  assert (Ht : 0 <= t0 < TP) by (apply pymod_range; exact Hp).
  assert (E : forall a, 0 <= a < TP -> pymod (a + t) TP = if Rltb (a + t0) TP then a + t0 else a + t0 - TP).
  { intros a Ha. destruct (pymod_same_dir t) as [j Hj]. fold TP in Hj. fold t0 in Hj.
    apply pymod_unique; destruct (Rltb_spec (a + t0) TP); try lra.
    - exists (- j)%Z. rewrite opp_IZR. lra.
    - exists (1 - j)%Z. rewrite minus_IZR. lra. }
  pose proof (sort_sorted s) as Ss. destruct (split_at (nsort s) (TP - t0) Ss) as (k & Hk & F1 & F2).
  destruct (sorted_split (nsort s) k Ss) as [S1 S2]. rewrite sort_length in Hk.
  exists k, (t0 - TP). split; [exact Hk|].
  rewrite Forall_forall in F1, F2.
  assert (In0 : forall a, In a (nsort s) -> 0 <= a < TP) by (intros a Ha; apply H, sort_in, Ha).
  assert (I1 : forall a, In a (firstn k (nsort s)) -> In a (nsort s)).
  { intros a Ha. rewrite <- (firstn_skipn k (nsort s)). apply in_or_app. auto. }
  assert (I2 : forall a, In a (skipn k (nsort s)) -> In a (nsort s)).
  { intros a Ha. rewrite <- (firstn_skipn k (nsort s)). apply in_or_app. auto. }
  rewrite map_app, map_map. apply sorted_perm_eq; [apply sort_sorted| |].
  - apply sorted_app.
    + apply sorted_map_add, S2.
    + rewrite (map_ext _ (fun x => x + t0)) by (intros; ring). apply sorted_map_add, S1.
    + intros x y Hx Hy. apply in_map_iff in Hx. apply in_map_iff in Hy.
      destruct Hx as (a & <- & Ha). destruct Hy as (b & <- & Hb).
      pose proof (In0 a (I2 a Ha)). pose proof (In0 b (I1 b Hb)). lra.
  - eapply Permutation_trans; [apply Permutation_sym, sort_perm|].
    eapply Permutation_trans; [apply Permutation_sym, perm_map_sort|].
    rewrite <- (firstn_skipn k (nsort s)) at 1. rewrite map_app.
    rewrite (map_ext_in (fun a => pymod (a + t) TP) (fun x => x + TP + (t0 - TP)) (firstn k (nsort s))).
    2:{ intros a Ha. rewrite E by (apply In0, I1, Ha). specialize (F1 a Ha). destruct (Rltb_spec (a + t0) TP); lra. }
    rewrite (map_ext_in (fun a => pymod (a + t) TP) (fun x => x + (t0 - TP)) (skipn k (nsort s))).
    2:{ intros a Ha. rewrite E by (apply In0, I2, Ha). specialize (F2 a Ha). destruct (Rltb_spec (a + t0) TP); lra. }
    apply Permutation_app_comm.
Qed.
Lemma nsort_shift s c : nsort (map (fun x => x + c) s) = map (fun x => x + c) (nsort s).
Proof.
  apply sorted_perm_eq; [apply sort_sorted|apply sorted_map_add, sort_sorted|].
  eapply Permutation_trans; [apply Permutation_sym, sort_perm|]. apply Permutation_sym, perm_map_sort.
Qed.
Lemma within_base s : s <> [] -> within_turn s -> exists c, forall a, In a s -> c <= a < c + TP.
Proof.
  intros Hn W. pose proof (sort_sorted s) as Ss. destruct (nsort s) as [|c l] eqn:E.
  { exfalso. apply Hn. apply length_zero_iff_nil. rewrite <- sort_length, E. reflexivity. }
  exists c. intros a Ha. assert (Ic : In c s) by (apply sort_in; rewrite E; left; reflexivity).
  specialize (W a c Ha Ic). fold TP in W. apply sort_in in Ha. rewrite E in Ha. apply StronglySorted_inv in Ss.
  destruct Ss as [_ F]. rewrite Forall_forall in F. destruct Ha as [<-|Ha]; [unfold TP in *; lra|].
  specialize (F a Ha). lra.
Qed.
Lemma wrap_rot s t : within_turn s -> exists k c, (k <= length s)%nat /\
  nsort (map (fun a => pymod (a + t) TP) s)
  = map (fun x => x + c) (skipn k (nsort s) ++ map (fun x => x + TP) (firstn k (nsort s))).
Proof.
  intros W. destruct s as [|a0 l]; [exists 0%nat, 0; simpl; auto|]. set (s := a0 :: l) in *.
  destruct (within_base s ltac:(discriminate) W) as (b & Hb).
  destruct (wrap_rot0 (map (fun x => x + - b) s) (t + b)) as (k & c & Hk & E).
  { intros a Ha. apply in_map_iff in Ha. destruct Ha as (z & <- & Hz). specialize (Hb z Hz). lra. }
  rewrite map_length in Hk. exists k, (c - b). split; [exact Hk|].
  rewrite map_map in E. rewrite (map_ext (fun a => pymod (a + t) TP) (fun x => pymod (x + - b + (t + b)) TP)).
  2:{ intros x. f_equal. ring. }
  rewrite E, nsort_shift. rewrite skipn_map, firstn_map. rewrite !map_app, !map_map. f_equal; apply map_ext; intros; ring.
Qed.
Definition rotl {A} (k : nat) (l : list A) : list A := skipn k l ++ firstn k l.
Lemma rotl_perm {A} k (l : list A) : Permutation (rotl k l) l.
Proof. unfold rotl. eapply Permutation_trans; [apply Permutation_app_comm|]. now rewrite firstn_skipn. Qed.
Lemma devs_skipn i h l k : skipn k (devs i h l) = devs (i + INR k) h (skipn k l).
Proof.
  revert i l. induction k as [|k IH]; intros i l; [simpl; now rewrite Rplus_0_r|].
  destruct l as [|x l]; [reflexivity|]. cbn [devs skipn]. rewrite IH, S_INR. f_equal. ring.
Qed.
Lemma devs_firstn i h l k : firstn k (devs i h l) = devs i h (firstn k l).
Proof.
  revert i l. induction k as [|k IH]; intros i l; [reflexivity|].
  destruct l as [|x l]; [reflexivity|]. cbn [devs firstn]. now rewrite IH.
Qed.
Lemma dev_wrap s t : s <> [] -> within_turn s -> exists k c,
  dev (map (fun a => pymod (a + t) TP) s) = map (fun d => d + c) (rotl k (dev s)).
Proof.
  intros Hn W. destruct (wrap_rot s t W) as (k & c & Hk & E).
  set (h := TP / INR (length s)). exists k, (c + INR k * h).
  unfold dev. rewrite map_length, E. fold h. rewrite devs_shift, devs_app, devs_shift.
  rewrite skipn_length, sort_length, minus_INR by exact Hk.
  unfold rotl. rewrite devs_skipn, devs_firstn, (devs_idx 1 (INR k)).
  assert (Hl : INR (length s) <> 0) by (apply not_0_INR; destruct s; [congruence|discriminate]).
  replace (1 + (INR (length s) - INR k)) with (1 + (INR (length s) - INR k)) by ring.
  rewrite (devs_idx 1 (INR (length s) - INR k)).
  rewrite !map_app, !map_map. f_equal; apply map_ext; intros x.
  - ring.
  - unfold h. field. exact Hl.
Qed.
Lemma turned_by_wrap t a b : turned_by t a b ->
  map (fun x => pymod (x + t) TP) a = map (fun x => pymod (x + 0) TP) b.
Proof.
  induction 1 as [|x y a b H _ IH]; [reflexivity|]. cbn [map]. f_equal; [|exact IH].
  rewrite Rplus_0_r. apply pymod_unique; [apply pymod_range, TP_pos|].
  destruct (same_dir_trans _ _ _ (pymod_same_dir y) H) as [k E]. exists (- k)%Z. rewrite opp_IZR. unfold TP in *. lra.
Qed.
Lemma rotl_map {A B} (f : A -> B) k l : rotl k (map f l) = map f (rotl k l).
Proof. unfold rotl. now rewrite skipn_map, firstn_map, map_app. Qed.
Lemma rotl_len {A} k (l : list A) : length (rotl k l) = length l.
Proof. apply Permutation_length, rotl_perm. Qed.
Lemma map_add_inv c (l m : list R) : l = map (fun d => d + c) m -> m = map (fun d => d + - c) l.
Proof. intros ->. rewrite map_map. rewrite <- (map_id m) at 1. apply map_ext. intros. ring. Qed.

(** ** Statistics as functions of the deviations *)
Lemma np_max_in l : l <> [] -> In (np_max l) l /\ forall x, In x l -> x <= np_max l.
Proof.
  destruct l as [|x l]; [congruence|]. intros _. cbn [np_max]. split; [apply Rlmax_in|].
  destruct (Rlmax_ge x l) as [H1 H2]. intros y [<-|Hy]; auto.
Qed.
Lemma np_max_unique l m : In m l -> (forall x, In x l -> x <= m) -> np_max l = m.
Proof.
  intros H1 H2. assert (Hn : l <> []) by (intros ->; destruct H1).
  destruct (np_max_in l Hn) as [I U]. apply Rle_antisym; [apply H2, I|apply U, H1].
Qed.
Lemma np_max_perm l l' : Permutation l l' -> np_max l = np_max l'.
Proof.
  intros P. destruct l as [|x l]; [apply Permutation_nil in P; now subst|].
  assert (Hn : x :: l <> []) by discriminate. destruct (np_max_in _ Hn) as [I U].
  symmetry. apply np_max_unique; [apply (Permutation_in _ P I)|].
  intros y Hy. apply U, (Permutation_in _ (Permutation_sym P) Hy).
Qed.
Lemma np_max_affine a c l : 0 < a -> l <> [] -> np_max (map (fun d => a * d + c) l) = a * np_max l + c.
Proof.
  intros Ha Hn. destruct (np_max_in l Hn) as [I U]. apply np_max_unique.
  - apply in_map_iff. exists (np_max l). auto.
  - intros x Hx. apply in_map_iff in Hx. destruct Hx as (y & <- & Hy). specialize (U y Hy). nra.
Qed.
(** Oscillation max - min. *)
Definition osc (l : list R) : R := np_max l + np_max (map Ropp l).
Lemma osc_perm l l' : Permutation l l' -> osc l = osc l'.
Proof. intros P. unfold osc. now rewrite (np_max_perm _ _ P), (np_max_perm _ _ (Permutation_map Ropp P)). Qed.
Lemma osc_shift c l : l <> [] -> osc (map (fun d => d + c) l) = osc l.
Proof.
  intros Hn. unfold osc. rewrite map_map.
  rewrite (map_ext (fun d => d + c) (fun d => 1 * d + c)) by (intros; ring).
  rewrite (map_ext (fun x => - (x + c)) (fun x => 1 * (- x) + - c)) by (intros; ring).
  rewrite <- (map_map Ropp (fun x => 1 * x + - c)).
  rewrite !np_max_affine; [ring|lra| |lra|exact Hn]. destruct l; [congruence|discriminate].
Qed.
Lemma osc_flip c l : l <> [] -> osc (map (fun d => c - d) l) = osc l.
Proof.
  intros Hn. unfold osc. rewrite map_map.
  rewrite (map_ext (fun d => c - d) (fun d => 1 * (- d) + c)) by (intros; ring).
  rewrite <- (map_map Ropp (fun x => 1 * x + c)).
  rewrite (map_ext (fun x => - (c - x)) (fun x => 1 * x + - c)) by (intros; ring).
  rewrite !np_max_affine; [ring|lra|exact Hn|lra|]. destruct l; [congruence|discriminate].
Qed.
Lemma osc_ge l x y : In x l -> In y l -> x - y <= osc l.
Proof.
  intros Hx Hy. assert (Hn : l <> []) by (intros ->; destruct Hx). unfold osc.
  destruct (np_max_in l Hn) as [_ U]. specialize (U x Hx).
  destruct (np_max_in (map Ropp l)) as [_ V]; [destruct l; [congruence|discriminate]|].
  specialize (V (- y) (in_map Ropp l y Hy)). lra.
Qed.
Lemma osc_attained l : l <> [] -> exists x y, In x l /\ In y l /\ osc l = x - y.
Proof.
  intros Hn. destruct (np_max_in l Hn) as [I _].
  destruct (np_max_in (map Ropp l)) as [J _]; [destruct l; [congruence|discriminate]|].
  apply in_map_iff in J. destruct J as (y & E & Hy). exists (np_max l), y. unfold osc. rewrite <- E. repeat split; auto. 
Qed.
Lemma kuiper_V_dev s : s <> [] ->
  kuiper_V s = kuiper_f (INR (length s)) * (osc (dev s) / TP + / INR (length s)).
Proof.
  intros Hn. pose proof TP_pos as Hp. unfold kuiper_V, indexed. cbv zeta.
  assert (Hl : 0 < INR (length s)) by (apply lt_0_INR; destruct s; [congruence|simpl; lia]).
  set (n := INR (length s)) in *.
  assert (Ed : dev s <> []) by (intros E; apply (f_equal (@length R)) in E; rewrite dev_len in E; destruct s; [congruence|discriminate]).
  rewrite (idx_devs' _ (fun d => / TP * (- d) + 0) (TP / n) TP) by (intros p; field; lra).
  rewrite (idx_devs' _ (fun d => / TP * d + / n) (TP / n) TP) by (intros p; field; lra).
  rewrite map_map. rewrite (map_ext (fun x => x / (2 * PI) * TP) (fun x => x)).
  2:{ intros x. unfold TP. field. apply PI_neq0. }
  rewrite map_id. replace (INR 1) with 1 by reflexivity.
  change (devs 1 (TP / n) (nsort s)) with (dev s).
  rewrite <- (map_map Ropp (fun d => / TP * d + 0)).
  rewrite !np_max_affine; try (apply Rinv_0_lt_compat, Hp); auto.
  2:{ destruct (dev s); [congruence|discriminate]. }
  unfold osc. field. lra.
Qed.
Definition ssd (l : list R) : R := Rsum (map (fun d => (d - mean l) ^ 2) l).
Lemma mean_perm l l' : Permutation l l' -> mean l = mean l'.
Proof. intros P. unfold mean. now rewrite (Rsum_perm _ _ P), (Permutation_length P). Qed.
Lemma ssd_perm l l' : Permutation l l' -> ssd l = ssd l'.
Proof. intros P. unfold ssd. rewrite (mean_perm _ _ P). apply Rsum_perm, Permutation_map, P. Qed.
Lemma mean_affine a c l : l <> [] -> mean (map (fun d => a * d + c) l) = a * mean l + c.
Proof.
  intros Hn. unfold mean. rewrite map_length, Rsum_map_plus, Rsum_map_const.
  rewrite (Rsum_map_scal a (fun d => d)), map_id. field. apply not_0_INR. destruct l; [congruence|discriminate].
Qed.
Lemma ssd_affine a c l : l <> [] -> ssd (map (fun d => a * d + c) l) = a ^ 2 * ssd l.
Proof.
  intros Hn. unfold ssd. rewrite mean_affine by exact Hn. rewrite map_map.
  rewrite <- Rsum_map_scal. apply Rsum_map_ext. intros x _. ring.
Qed.
Lemma Rsum_seq_odd n : Rsum (map INR (seq 1 n)) = INR n * (INR n + 1) / 2.
Proof.
  induction n as [|n IH]; [simpl; lra|]. rewrite seq_S, map_app, Rsum_app, IH. cbn [map].
  rewrite Rsum_cons, Rsum_nil. replace (1 + n)%nat with (S n) by lia. rewrite S_INR. lra.
Qed.
Lemma watson_U2_dev s : s <> [] ->
  watson_U2 s = ssd (dev s) / TP ^ 2 + 1 / (12 * INR (length s)).
Proof.
  intros Hn. pose proof TP_pos as Hp. unfold watson_U2, indexed. cbv zeta.
  assert (Hl : 0 < INR (length s)) by (apply lt_0_INR; destruct s; [congruence|simpl; lia]).
  set (n := INR (length s)) in *. set (u := map (fun a => a / (2 * PI)) (nsort s)).
  assert (Lu : length u = length s) by (unfold u; now rewrite map_length, sort_length).
  assert (Ed : dev s = devs (INR 1) (TP / n) (map (fun x => x * TP) u)).
  { unfold dev, u. rewrite map_map. rewrite (map_ext (fun x => x / (2 * PI) * TP) (fun x => x)).
    - now rewrite map_id.
    - intros x. unfold TP. field. apply PI_neq0. }
  assert (Em : mean (dev s) = TP * (Rsum u / n - /2) - TP / (2 * n)).
  { unfold mean. rewrite dev_len. fold n. rewrite Ed, <- (map_id (devs _ _ _)).
    rewrite <- (idx_devs' (fun p => snd p * TP - fst p * (TP / n)) (fun d => d)) by reflexivity.
    assert (G : forall l k, Rsum (map (fun p : R * R => snd p * TP - fst p * (TP / n)) (combine (map INR (seq k (length l))) l))
               = TP * Rsum l - TP / n * Rsum (map INR (seq k (length l)))).
    { induction l as [|x l IH]; intros k; [simpl; ring|]. cbn [length seq map combine]. rewrite !Rsum_cons, IH. cbn [fst snd]. ring. }
    rewrite G. rewrite (Rsum_seq_odd (length u)). rewrite Lu. fold n. field. lra. }
  f_equal. unfold ssd. rewrite Em.
  rewrite (idx_devs' _ (fun d => / TP ^ 2 * (d - (TP * (Rsum u / n - / 2) - TP / (2 * n))) ^ 2) (TP / n) TP)
    by (intros p; field; lra).
  rewrite <- Ed. rewrite Rsum_map_scal. field. lra.
Qed.
(** Cyclic differences. *)
Definition cdiff (l : list R) : list R := diff (last l 0 :: l).
Lemma diff_app x a b : diff (x :: a ++ b) = diff (x :: a) ++ diff (last (x :: a) 0 :: b).
Proof.
  revert x. induction a as [|y a IH]; intros x; [reflexivity|].
  change ((y :: a) ++ b) with (y :: (a ++ b)). cbn [diff app]. f_equal.
  change (diff (y :: a ++ b) = diff (y :: a) ++ diff (last (y :: a) 0 :: b)). apply IH.
Qed.
Lemma last_app (a b : list R) : b <> [] -> last (a ++ b) 0 = last b 0.
Proof.
  intros Hb. induction a as [|x a IH]; [reflexivity|]. cbn [app last]. rewrite IH.
  destruct (a ++ b) eqn:E; [|reflexivity]. apply app_eq_nil in E. tauto.
Qed.
Lemma last_cons (x : R) a : a <> [] -> last (x :: a) 0 = last a 0.
Proof. intros H. destruct a; [congruence|reflexivity]. Qed.
Lemma cdiff_rotl k l : Permutation (cdiff (rotl k l)) (cdiff l).
Proof.
  unfold rotl. rewrite <- (firstn_skipn k l) at 3. generalize (firstn k l) as a, (skipn k l) as b. intros a b.
  destruct a as [|x a]; [cbn [app]; now rewrite app_nil_r|]. destruct b as [|y b]; [cbn [app]; now rewrite app_nil_r|].
  unfold cdiff. rewrite !last_app by discriminate. rewrite !diff_app.
  rewrite !(last_cons _ (_ :: _)) by discriminate. apply Permutation_app_comm.
Qed.
Lemma diff_shift c l : diff (map (fun d => d + c) l) = diff l.
Proof.
  induction l as [|x l IH]; [reflexivity|]. destruct l as [|y l]; [reflexivity|]. cbn [map diff] in *. f_equal; [ring|exact IH].
Qed.
Lemma last_map (f : R -> R) l : l <> [] -> last (map f l) 0 = f (last l 0).
Proof.
  induction l as [|x l IH]; [congruence|]. intros _. destruct l as [|y l]; [reflexivity|].
  cbn [map]. rewrite !(last_cons _ (_ :: _)) by discriminate. apply IH. discriminate.
Qed.
Lemma cdiff_shift c l : cdiff (map (fun d => d + c) l) = cdiff l.
Proof.
  destruct l as [|x l]; [reflexivity|]. unfold cdiff. rewrite (last_map (fun d => d + c)) by discriminate.
  exact (diff_shift c (last (x :: l) 0 :: x :: l)).
Qed.
Lemma diff_flip c l : diff (map (fun d => c - d) l) = map Ropp (diff l).
Proof.
  induction l as [|x l IH]; [reflexivity|]. destruct l as [|y l]; [reflexivity|]. cbn [map diff] in *. f_equal; [ring|exact IH].
Qed.
Lemma cdiff_flip c l : cdiff (map (fun d => c - d) l) = map Ropp (cdiff l).
Proof.
  destruct l as [|x l]; [reflexivity|]. unfold cdiff. rewrite (last_map (fun d => c - d)) by discriminate.
  exact (diff_flip c (last (x :: l) 0 :: x :: l)).
Qed.
Lemma diff_snoc l x : l <> [] -> diff (l ++ [x]) = diff l ++ [x - last l 0].
Proof.
  intros Hn. destruct l as [|y l]; [congruence|]. change ((y :: l) ++ [x]) with (y :: (l ++ [x])).
  now rewrite diff_app.
Qed.
Lemma diff_rev l : diff (rev l) = rev (map Ropp (diff l)).
Proof.
  induction l as [|x l IH]; [reflexivity|]. destruct l as [|y l]; [reflexivity|].
  cbn [rev] in *. rewrite diff_snoc by (destruct (rev l); discriminate). rewrite IH.
  cbn [diff map rev]. f_equal. f_equal. 
  rewrite last_last. ring.
Qed.
Lemma cdiff_alt x l : Permutation (cdiff (x :: l)) (diff (x :: l) ++ [x - last (x :: l) 0]).
Proof. unfold cdiff. cbn [diff]. apply Permutation_cons_append. Qed.
Lemma cdiff_rev l : Permutation (cdiff (rev l)) (map Ropp (cdiff l)).
Proof.
  destruct l as [|x l]; [constructor|].
  destruct (rev (x :: l)) as [|y m] eqn:E; [apply (f_equal (@length R)) in E; rewrite rev_length in E; discriminate|].
  eapply Permutation_trans; [apply cdiff_alt|]. rewrite <- E, diff_rev.
  eapply Permutation_trans; [|apply Permutation_map, Permutation_sym, cdiff_alt].
  rewrite map_app. apply Permutation_app; [apply Permutation_sym, Permutation_rev|]. cbn [map].
  assert (L1 : last (rev (x :: l)) 0 = x) by (cbn [rev]; apply last_last).
  assert (L2 : last (x :: l) 0 = y).
  { assert (x :: l = rev (y :: m)) by (rewrite <- E; symmetry; apply rev_involutive). rewrite H. cbn [rev]. apply last_last. }
  rewrite L1, L2. replace (- (x - y)) with (y - x) by ring. constructor. constructor.
Qed.
Definition absum (l : list R) : R := Rsum (map Rabs l).
Lemma absum_perm l l' : Permutation l l' -> absum l = absum l'.
Proof. intros P. apply Rsum_perm, Permutation_map, P. Qed.
Lemma absum_opp l : absum (map Ropp l) = absum l.
Proof. unfold absum. rewrite map_map. apply Rsum_map_ext. intros x _. apply Rabs_Ropp. Qed.
Lemma diff_devs x i h l : diff (devs i h (x :: l)) = map (fun s => s - h) (diff (x :: l)).
Proof.
  revert x i. induction l as [|y l IH]; intros x i; [reflexivity|].
  change (devs i h (x :: y :: l)) with ((x - i * h) :: devs (i + 1) h (y :: l)).
  specialize (IH y (i + 1)). 
  change (devs (i + 1) h (y :: l)) with ((y - (i + 1) * h) :: devs (i + 1 + 1) h l) in *.
  cbn [diff map] in *. f_equal; [ring|]. exact IH.
Qed.
Lemma last_devs i h l : l <> [] -> last (devs i h l) 0 = last l 0 - (i + INR (length l) - 1) * h.
Proof.
  revert i. induction l as [|x l IH]; intros i Hn; [congruence|]. destruct l as [|y l]; [simpl; ring|].
  rewrite (last_cons x) by discriminate. change (devs i h (x :: y :: l)) with ((x - i * h) :: devs (i + 1) h (y :: l)).
  rewrite last_cons by discriminate. rewrite IH by discriminate. cbn [length]. rewrite !S_INR. ring.
Qed.
Lemma rao_U_dev s : s <> [] -> rao_U s = / 2 * absum (cdiff (dev s)).
Proof.
  intros Hn. unfold rao_U. f_equal. fold TP.
  assert (Hl : INR (length s) <> 0) by (apply not_0_INR; destruct s; [congruence|discriminate]).
  assert (Es : length (nsort s) = length s) by apply sort_length. set (h := TP / INR (length s)).
  unfold dev. fold h. destruct (nsort s) as [|x l] eqn:E.
  { exfalso. apply Hn, length_zero_iff_nil. now rewrite <- Es. }
  change (cdiff (devs 1 h (x :: l))) with (cdiff (x - 1 * h :: devs (1 + 1) h l)).
  rewrite (absum_perm _ _ (cdiff_alt (x - 1 * h) (devs (1 + 1) h l))).
  change (x - 1 * h :: devs (1 + 1) h l) with (devs 1 h (x :: l)).
  rewrite diff_devs, last_devs by discriminate. rewrite Es. unfold absum.
  rewrite !map_app, map_map. f_equal. f_equal. cbn [map hd]. f_equal. f_equal. unfold h. field. exact Hl.
Qed.

(** ** Invariance *)
Lemma dev_nonempty s : s <> [] -> dev s <> [].
Proof. intros Hn E. apply (f_equal (@length R)) in E. rewrite dev_len in E. destruct s; [congruence|discriminate]. Qed.
Lemma rotl_nonempty {A} k (l : list A) : l <> [] -> rotl k l <> [].
Proof. intros Hn E. apply (f_equal (@length A)) in E. rewrite rotl_len in E. destruct l; [congruence|discriminate]. Qed.
Section invariant.
  (** T is one of the three statistics as a function of length and deviations. *)
  Variable T : list R -> R.
  Hypothesis T_rot : forall k c l, l <> [] -> T (map (fun d => d + c) (rotl k l)) = T l.
  Hypothesis T_flip : forall c l, l <> [] -> T (map (fun d => c - d) (rev l)) = T l.
  Lemma T_wrap s t : s <> [] -> within_turn s -> T (dev (map (fun a => pymod (a + t) TP) s)) = T (dev s).
  Proof. intros Hn W. destruct (dev_wrap s t Hn W) as (k & c & E). rewrite E. apply T_rot, dev_nonempty, Hn. Qed.
  Lemma T_turned t a b : a <> [] -> within_turn a -> within_turn b -> turned_by t a b -> T (dev b) = T (dev a).
  Proof.
    intros Hn Wa Wb H. assert (Hb : b <> []) by (intros ->; inversion H; subst; congruence).
    rewrite <- (T_wrap a t Hn Wa), <- (T_wrap b 0 Hb Wb). now rewrite (turned_by_wrap _ _ _ H).
  Qed.
  Lemma dev_opp s : s <> [] -> exists c, dev (map Ropp s) = map (fun d => c - d) (rev (dev s)).
  Proof.
    intros Hn. set (h := TP / INR (length s)). exists (- (INR (length s) + 1) * h).
    assert (E : nsort (map Ropp s) = rev (map Ropp (nsort s))).
    { apply sorted_perm_eq; [apply sort_sorted| |].
      - pose proof (sort_sorted s) as Ss. induction Ss as [|x l _ IH Fx]; [constructor|]. cbn [map rev].
        apply sorted_app; [exact IH|repeat constructor|]. intros y z Hy [<-|[]].
        rewrite <- in_rev in Hy. apply in_map_iff in Hy. destruct Hy as (v & <- & Hv).
        rewrite Forall_forall in Fx. specialize (Fx v Hv). lra.
      - eapply Permutation_trans; [apply Permutation_sym, sort_perm|].
        eapply Permutation_trans; [apply Permutation_map, sort_perm|]. apply Permutation_rev. }
    unfold dev. rewrite map_length, E. fold h. assert (El := sort_length s). revert El. generalize (nsort s) as l.
    intros l El. rewrite <- El. rewrite <- map_rev. clear.
    assert (G : forall m i, devs i h (map Ropp (rev m)) =
              map (fun d => - (2 * i + INR (length m) - 1) * h - d) (rev (devs i h m))).
    { induction m as [|x m IH]; intros i; [reflexivity|]. cbn [rev devs]. rewrite map_app, devs_app, IH, !map_length, rev_length.
      rewrite !map_app. f_equal.
      - replace (i + 1) with (i + 1) by ring. rewrite (devs_idx i 1), <- map_rev, !map_map. apply map_ext. intros d.
        cbn [length]. rewrite S_INR. ring.
      - cbn [map devs length]. f_equal. rewrite S_INR. ring. }
    rewrite G. apply map_ext. intros d. ring.
  Qed.
  Lemma T_mirrored t a b : a <> [] -> within_turn a -> within_turn b -> mirrored t a b -> T (dev b) = T (dev a).
  Proof.
    intros Hn Wa Wb H.
    assert (Hn' : map Ropp a <> []) by (destruct a; [congruence|discriminate]).
    rewrite (T_turned t (map Ropp a) b Hn'); auto.
    - destruct (dev_opp a Hn) as (c & E). rewrite E. apply T_flip, dev_nonempty, Hn.
    - intros x y Hx Hy. apply in_map_iff in Hx. apply in_map_iff in Hy.
      destruct Hx as (x' & <- & Hx). destruct Hy as (y' & <- & Hy). specialize (Wa y' x' Hy Hx). lra.
    - clear - H. induction H as [|x y l m D _ IH]; constructor; auto.
      replace (- x + t) with (t - x) by ring. exact D.
  Qed.
  Lemma dev_perm a b : Permutation a b -> dev b = dev a.
  Proof. intros P. unfold dev. now rewrite (sort_perm_eq _ _ P), (Permutation_length P). Qed.
End invariant.
