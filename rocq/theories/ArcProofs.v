(** Shortest arcs holding a given number of directions: the sliding window over
    the sorted directions is exact. *)
From Coq Require Import Sorting.Sorted.
From Verif Require Import Prelude NpModel NpProofs CircleSpec UtilsModel UtilsProofs Desc2Model.

Definition TP := 2 * PI.
Lemma TP_pos : 0 < TP. Proof. exact PI2_pos. Qed.

(** * Counting *)
Lemma count_if_perm {A} (p : A -> bool) l l' : Permutation l l' -> count_if p l = count_if p l'.
Proof.
  unfold count_if. induction 1; simpl; auto.
  - destruct (p x); simpl; congruence.
  - destruct (p x), (p y); simpl; congruence.
  - congruence.
Qed.
Lemma count_if_app {A} (p : A -> bool) l l' : count_if p (l ++ l') = (count_if p l + count_if p l')%nat.
Proof.
  unfold count_if. induction l as [|x l IH]; simpl; auto. destruct (p x); simpl; rewrite IH; reflexivity.
Qed.
Lemma count_if_map {A B} (f : A -> B) p l : count_if p (map f l) = count_if (fun x => p (f x)) l.
Proof. unfold count_if. induction l as [|x l IH]; simpl; auto. destruct (p (f x)); simpl; auto. Qed.
Lemma count_if_ext {A} (p q : A -> bool) l : (forall x, In x l -> p x = q x) -> count_if p l = count_if q l.
Proof.
  unfold count_if. induction l as [|x l IH]; simpl; intros H; auto.
  rewrite (H x) by auto. destruct (q x); simpl; rewrite IH; auto.
Qed.
Lemma count_if_le {A} (p q : A -> bool) l : (forall x, In x l -> p x = true -> q x = true) ->
  (count_if p l <= count_if q l)%nat.
Proof.
  unfold count_if. induction l as [|x l IH]; simpl; intros H; auto.
  assert (IH' := IH ltac:(intros; apply H; auto)).
  destruct (p x) eqn:E; [rewrite (H x) by auto; simpl; lia|]. destruct (q x); simpl; lia.
Qed.
Lemma count_if_len {A} (p : A -> bool) l : (count_if p l <= length l)%nat.
Proof. unfold count_if. induction l as [|x l IH]; simpl; auto. destruct (p x); simpl; lia. Qed.
Lemma count_prefix {A} (p : A -> bool) d k l : (k <= length l)%nat ->
  (forall j, (j < k)%nat -> p (nth j l d) = true) -> (k <= count_if p l)%nat.
Proof.
  unfold count_if. revert k. induction l as [|x l IH]; simpl; intros k Hk H; [lia|].
  destruct k as [|k]; [lia|]. pose proof (H 0%nat ltac:(lia)) as H0. simpl in H0. rewrite H0. simpl.
  apply le_n_S, IH; [lia|]. intros j Hj. apply (H (S j)). lia.
Qed.
Lemma count_suffix {A} (p : A -> bool) d k l :
  (forall j, (k <= j < length l)%nat -> p (nth j l d) = false) -> (count_if p l <= k)%nat.
Proof.
  unfold count_if. revert k. induction l as [|x l IH]; simpl; intros k H; [lia|].
  destruct k as [|k].
  - pose proof (H 0%nat ltac:(lia)) as H0. simpl in H0. rewrite H0.
    apply (IH 0%nat). intros j Hj. apply (H (S j)). lia.
  - assert (length (filter p l) <= k)%nat by (apply IH; intros j Hj; apply (H (S j)); lia).
    destruct (p x); simpl; lia.
Qed.
Lemma count_pos {A} (p : A -> bool) l : (0 < count_if p l)%nat -> exists x, In x l /\ p x = true.
Proof.
  unfold count_if. destruct (filter p l) as [|x t] eqn:E; simpl; [lia|]. intros _.
  exists x. apply filter_In. rewrite E. left. reflexivity.
Qed.

(** * Arcs as offsets *)
Definition off (lo a : R) : R := pymod (a - lo) TP.
Lemma off_range lo a : 0 <= off lo a < TP.
Proof. apply pymod_range, TP_pos. Qed.
Lemma in_arc_iff lo L a : L < TP -> (in_arc lo L a <-> off lo a <= L).
Proof.
  intros HL. unfold off. split.
  - intros (t & Ht & D). assert (E : pymod (a - lo) TP = t).
    { apply pymod_unique; [lra|]. destruct D as [k E]. exists k. unfold TP. lra. }
    lra.
  - intros H. exists (pymod (a - lo) TP). pose proof (pymod_range (a - lo) TP TP_pos).
    split; [lra|]. destruct (pymod_cong (a - lo) TP) as [k E]. exists k. unfold TP in *. lra.
Qed.
Definition cnt (s : list R) (lo L : R) : nat := count_if (fun a => Rleb (off lo a) L) s.
Lemma arc_holds_cnt s lo L k : L < TP -> (arc_holds s lo L k <-> (k <= cnt s lo L)%nat).
Proof.
  intros HL. unfold arc_holds, cnt. split.
  - intros (ins & out & P & Hk & F). rewrite (count_if_perm _ _ _ P), count_if_app.
    assert (E : count_if (fun a => Rleb (off lo a) L) ins = length ins).
    { unfold count_if. clear P Hk. induction F as [|x t Hx F IH]; simpl; auto.
      apply (in_arc_iff lo L x HL) in Hx. destruct (Rleb_spec (off lo x) L); [simpl; congruence|lra]. }
    lia.
  - intros Hk. exists (filter (fun a => Rleb (off lo a) L) s), (filter (fun a => negb (Rleb (off lo a) L)) s).
    split; [|split; [exact Hk|]].
    + clear. induction s as [|x s IH]; simpl; auto.
      destruct (Rleb (off lo x) L); simpl; [auto|].
      apply Permutation_cons_app, IH.
    + apply Forall_forall. intros x Hx. apply filter_In in Hx. destruct Hx as [_ Hx].
      apply Rleb_true in Hx. apply in_arc_iff; auto.
Qed.
Lemma off_dir lo a b : same_dir a b -> off lo a = off lo b.
Proof.
  intros D. unfold off. apply (same_dir_pymod (a - lo) (b - lo)).
  apply same_dir_sub; [exact D|apply same_dir_refl].
Qed.
Lemma off_shift lo a : off lo (a + TP) = off lo a.
Proof. apply off_dir. exists 1%Z. unfold TP. simpl. lra. Qed.
Lemma off_small lo a : 0 <= a - lo < TP -> off lo a = a - lo.
Proof. intros H. apply pymod_small. exact H. Qed.
Lemma off_rebase lo a b : off lo a <= off lo b -> off a b = off lo b - off lo a.
Proof.
  intros H. unfold off in *. apply pymod_unique.
  - pose proof (pymod_range (b - lo) TP TP_pos). pose proof (pymod_range (a - lo) TP TP_pos). lra.
  - destruct (pymod_cong (a - lo) TP) as [k E]. destruct (pymod_cong (b - lo) TP) as [j F].
    exists (j - k)%Z. rewrite minus_IZR. lra.
Qed.
Lemma cnt_wrap s lo L : cnt (map (fun a => pymod a TP) s) lo L = cnt s lo L.
Proof.
  unfold cnt. rewrite count_if_map. apply count_if_ext. intros a _.
  rewrite (off_dir lo (pymod a TP) a) by apply pymod_same_dir. reflexivity.
Qed.
Lemma cnt_perm s s' lo L : Permutation s s' -> cnt s lo L = cnt s' lo L.
Proof. apply count_if_perm. Qed.

(** * Sorted directions and the doubled list *)
Section Window.
Variable s : list R.
Hypothesis Hsort : StronglySorted Rle s.
Hypothesis Hrange : forall a, In a s -> 0 <= a < TP.
Let n := length s.
Let ext := s ++ map (fun x => x + TP) s.
Definition width (w i : nat) : R := nth (i + w - 1) ext 0 - nth i s 0.

Lemma sorted_nth l : StronglySorted Rle l -> forall i j, (i <= j < length l)%nat ->
  nth i l 0 <= nth j l 0.
Proof.
  induction 1 as [|x l S IH F]; simpl; intros i j H; [lia|].
  destruct i as [|i], j as [|j]; try lia; [lra| |apply IH; lia].
  rewrite Forall_forall in F. apply F, nth_In. lia.
Qed.
Lemma ext_length : length ext = (n + n)%nat.
Proof. unfold ext, n. rewrite app_length, map_length. reflexivity. Qed.
Lemma ext_low j : (j < n)%nat -> nth j ext 0 = nth j s 0.
Proof. intros H. unfold ext. apply app_nth1. exact H. Qed.
Lemma ext_high j : (n <= j < n + n)%nat -> nth j ext 0 = nth (j - n) s 0 + TP.
Proof.
  intros H. unfold ext. rewrite app_nth2 by (fold n; lia). fold n.
  rewrite (nth_indep _ 0 (0 + TP)) by (rewrite map_length; fold n; lia).
  apply (map_nth (fun x => x + TP)).
Qed.
Lemma s_range i : (i < n)%nat -> 0 <= nth i s 0 < TP.
Proof. intros H. apply Hrange, nth_In. exact H. Qed.
Lemma ext_mono i j : (i <= j < n + n)%nat -> nth i ext 0 <= nth j ext 0.
Proof.
  intros H. destruct (lt_dec j n) as [Hj|Hj].
  - rewrite !ext_low by lia. apply sorted_nth; [exact Hsort|fold n; lia].
  - destruct (lt_dec i n) as [Hi|Hi].
    + rewrite ext_low, ext_high by lia. pose proof (s_range i Hi). pose proof (s_range (j - n) ltac:(lia)). lra.
    + rewrite !ext_high by lia. assert (nth (i - n) s 0 <= nth (j - n) s 0).
      { apply sorted_nth; [exact Hsort|fold n; lia]. } lra.
Qed.
(** The list read from position i once around. *)
Definition rotl (i : nat) : list R := skipn i s ++ map (fun x => x + TP) (firstn i s).
Lemma rotl_cnt i lo L : cnt (rotl i) lo L = cnt s lo L.
Proof.
  unfold cnt, rotl. rewrite count_if_app, count_if_map.
  rewrite (count_if_ext (fun x => Rleb (off lo (x + TP)) L) (fun x => Rleb (off lo x) L))
    by (intros; rewrite off_shift; reflexivity).
  rewrite Nat.add_comm, <- count_if_app, firstn_skipn. reflexivity.
Qed.
Lemma rotl_length i : (i <= n)%nat -> length (rotl i) = n.
Proof.
  intros H. unfold rotl. rewrite app_length, skipn_length, map_length, firstn_length. fold n. lia.
Qed.
Lemma nth_skipn' (l : list R) i j : nth j (skipn i l) 0 = nth (i + j) l 0.
Proof.
  revert l. induction i as [|i IH]; intros l; [reflexivity|].
  destruct l as [|x l]; [destruct j; reflexivity|]. simpl. apply IH.
Qed.
Lemma nth_firstn' (l : list R) i j : (j < i)%nat -> nth j (firstn i l) 0 = nth j l 0.
Proof.
  revert l j. induction i as [|i IH]; intros l j H; [lia|].
  destruct l as [|x l]; [destruct j; reflexivity|]. destruct j; [reflexivity|]. simpl. apply IH. lia.
Qed.
Lemma rotl_nth i j : (i < n)%nat -> (j < n)%nat -> nth j (rotl i) 0 = nth (i + j) ext 0.
Proof.
  intros Hi Hj. unfold rotl. destruct (lt_dec (i + j) n) as [H|H].
  - rewrite app_nth1 by (rewrite skipn_length; fold n; lia). rewrite nth_skipn', ext_low by lia. reflexivity.
  - rewrite app_nth2 by (rewrite skipn_length; fold n; lia). rewrite skipn_length. fold n.
    rewrite ext_high by lia. replace (j - (n - i))%nat with (i + j - n)%nat by lia.
    rewrite (nth_indep _ 0 (0 + TP)) by (rewrite map_length, firstn_length; fold n; lia).
    rewrite (map_nth (fun x => x + TP)), nth_firstn' by lia. reflexivity.
Qed.
Lemma width_nonneg w i : (1 <= w <= n)%nat -> (i < n)%nat -> 0 <= width w i.
Proof.
  intros Hw Hi. unfold width. rewrite <- (ext_low i Hi).
  pose proof (ext_mono i (i + w - 1) ltac:(lia)). lra.
Qed.
Lemma width_0 w : (1 <= w <= n)%nat -> width w 0 < TP.
Proof.
  intros Hw. unfold width. rewrite ext_low by lia.
  pose proof (s_range (0 + w - 1) ltac:(lia)). pose proof (s_range 0 ltac:(lia)). lra.
Qed.
(** A window is an arc with at least w samples. *)
Lemma window_holds w i : (1 <= w <= n)%nat -> (i < n)%nat -> width w i < TP ->
  (w <= cnt s (nth i s 0%R) (width w i))%nat.
Proof.
  intros Hw Hi HL. rewrite <- (rotl_cnt i). unfold cnt. apply (count_prefix _ 0).
  - rewrite rotl_length; lia.
  - intros j Hj. rewrite rotl_nth by lia. apply Rleb_true.
    pose proof (ext_mono i (i + j) ltac:(lia)) as M1. rewrite (ext_low i Hi) in M1.
    pose proof (ext_mono (i + j) (i + w - 1) ltac:(lia)) as M2. unfold width in *.
    rewrite off_small by lra. lra.
Qed.
Lemma first_index (a : R) : In a s -> exists i, (i < n)%nat /\ nth i s 0 = a /\
  forall j, (j < i)%nat -> nth j s 0 < a.
Proof.
  intros Ha. destruct (In_nth s a 0 Ha) as (k & Hk & E).
  assert (W : forall m, (m < n)%nat -> nth m s 0 = a ->
    exists i, (i < n)%nat /\ nth i s 0 = a /\ forall j, (j < i)%nat -> nth j s 0 < a).
  { induction m as [m IH] using lt_wf_ind. intros Hm Em.
    destruct (Req_dec (nth (m - 1) s 0) a) as [E1|N1].
    - destruct m as [|m]; [exists 0%nat; split; [lia|]; split; [exact Em|lia]|].
      replace (S m - 1)%nat with m in E1 by lia. apply (IH m); lia || exact E1.
    - exists m. split; [lia|]. split; [exact Em|]. intros j Hj.
      assert (nth j s 0 <= nth (m - 1) s 0) by (apply sorted_nth; [exact Hsort|fold n; lia]).
      assert (nth (m - 1) s 0 <= nth m s 0) by (apply sorted_nth; [exact Hsort|fold n; lia]). lra. }
  apply (W k Hk E).
Qed.
(** Every arc with at least w samples is at least as long as some window. *)
Lemma arc_ge_window w lo L : (1 <= w)%nat -> L < TP -> (w <= cnt s lo L)%nat ->
  exists i, (i < n)%nat /\ width w i <= L.
Proof.
  intros Hw HL Hc.
  destruct (count_pos _ _ (Nat.lt_le_trans _ _ _ Hw Hc)) as (b0 & Hb0 & Eb0).
  apply Rleb_true in Eb0.
  (* the sample first met from lo *)
  assert (M : exists a, In a s /\ forall b, In b s -> off lo a <= off lo b).
  { destruct s as [|x t] eqn:Es; [inversion Hb0|].
    pose proof (Rlmin_in (off lo x) (map (off lo) t)) as I.
    destruct (Rlmin_le (off lo x) (map (off lo) t)) as [M1 M2].
    assert (ML : forall b, In b (x :: t) -> Rlmin (off lo x) (map (off lo) t) <= off lo b).
    { intros b [<-|Hb]; [exact M1|]. apply M2, in_map, Hb. }
    destruct I as [E|I].
    - exists x. split; [left; auto|]. rewrite E. exact ML.
    - apply in_map_iff in I. destruct I as (b & E & Hb). exists b. split; [right; auto|].
      rewrite E. exact ML. }
  destruct M as (a & Ha & Hmin). pose proof (Hmin b0 Hb0).
  assert (Hc' : (w <= cnt s a L)%nat).
  { eapply Nat.le_trans; [exact Hc|]. apply count_if_le. intros b Hb Eb.
    apply Rleb_true in Eb. apply Rleb_true. rewrite (off_rebase lo a b) by auto.
    pose proof (off_range lo a). lra. }
  assert (Hwn : (w <= n)%nat) by (eapply Nat.le_trans; [exact Hc'|apply count_if_len]).
  destruct (first_index a Ha) as (i & Hi & Ei & Hfirst). exists i. split; [exact Hi|].
  destruct (Rle_lt_dec (width w i) L) as [|Hlt]; [assumption|exfalso].
  rewrite <- (rotl_cnt i) in Hc'. unfold cnt in Hc'.
  assert (B : (count_if (fun b => Rleb (off a b) L) (rotl i) <= w - 1)%nat).
  { apply (count_suffix _ 0). intros j Hj. rewrite rotl_length in Hj by lia.
    rewrite rotl_nth by lia. apply Rleb_false.
    assert (O : off a (nth (i + j) ext 0) = nth (i + j) ext 0 - a).
    { apply off_small. pose proof (ext_mono i (i + j) ltac:(lia)) as M1. rewrite (ext_low i Hi) in M1.
      pose proof (s_range i Hi) as Ri.
      destruct (lt_dec (i + j) n) as [H1|H1].
      - rewrite ext_low in * by lia. pose proof (s_range (i + j) H1). lra.
      - rewrite ext_high in * by lia. pose proof (Hfirst (i + j - n)%nat ltac:(lia)). lra. }
    rewrite O. unfold width in Hlt. rewrite Ei in Hlt.
    pose proof (ext_mono (i + w - 1) (i + j) ltac:(lia)). lra. }
  lia.
Qed.
End Window.

(** Least arc length, for the directions of any list. *)
Definition wrapsort (l : list R) : list R := nsort (map (fun a => pymod a TP) l).
Lemma wrapsort_sorted l : StronglySorted Rle (wrapsort l).
Proof. apply sort_sorted. Qed.
Lemma wrapsort_range l a : In a (wrapsort l) -> 0 <= a < TP.
Proof.
  unfold wrapsort. rewrite sort_in, in_map_iff. intros (b & <- & _). apply pymod_range, TP_pos.
Qed.
Lemma wrapsort_length l : length (wrapsort l) = length l.
Proof. unfold wrapsort. rewrite sort_length, map_length. reflexivity. Qed.
Lemma wrapsort_cnt l lo L : cnt (wrapsort l) lo L = cnt l lo L.
Proof.
  unfold wrapsort. rewrite <- (cnt_perm _ _ lo L (sort_perm _)). apply cnt_wrap.
Qed.
Lemma wrapsort_dir l a : In a (wrapsort l) -> exists b, In b l /\ same_dir a b.
Proof.
  unfold wrapsort. rewrite sort_in, in_map_iff. intros (b & <- & Hb).
  exists b. split; [exact Hb|apply pymod_same_dir].
Qed.
Lemma best_window_spec l w i : (1 <= w <= length l)%nat -> (i < length l)%nat ->
  (forall j, (j < length l)%nat -> width (wrapsort l) w i <= width (wrapsort l) w j) ->
  let L := width (wrapsort l) w i in
  0 <= L < TP /\ arc_holds l (nth i (wrapsort l) 0) L w /\
  (forall lo L', 0 <= L' -> arc_holds l lo L' w -> L <= L').
Proof.
  intros Hw Hi Hmin L.
  pose proof (wrapsort_sorted l) as S. pose proof (wrapsort_range l) as Rg.
  pose proof (wrapsort_length l) as N.
  assert (HL : L < TP).
  { eapply Rle_lt_trans; [apply (Hmin 0%nat); lia|].
    apply (width_0 (wrapsort l) Rg); rewrite N; lia. }
  assert (HL0 : 0 <= L) by (apply width_nonneg; auto; rewrite ?N; lia).
  split; [auto|]. split.
  - apply arc_holds_cnt; auto. rewrite <- wrapsort_cnt.
    apply window_holds; auto; rewrite ?N; lia.
  - intros lo L' H0 HA. destruct (Rlt_le_dec L' TP) as [HT|]; [|lra].
    apply arc_holds_cnt in HA; auto. rewrite <- wrapsort_cnt in HA.
    destruct (arc_ge_window (wrapsort l) S Rg w lo L' ltac:(lia) HT HA) as (j & Hj & Hle).
    rewrite N in Hj. specialize (Hmin j Hj). fold L in Hmin. lra.
Qed.
