(** C20 (compute_hdi), C21 (circ_range). *)
From Coq Require Import Sorting.Sorted.
From Verif Require Import Prelude NpModel NpProofs CircleSpec Desc2Spec UtilsModel UtilsProofs
  DescModel DescProofs DescSpec DescApi DescApi2 Desc2Model Desc2Proofs ArcProofs.

Lemma hdi_fold s ext w : (0 < length s)%nat ->
  ext = s ++ map (fun x => x + TP) s -> forall s0,
  exists i, (i < length s)%nat /\
    fold_left (hdi_step s ext w) (seq 0 (length s)) (None, (s0, s0)) =
      (Some (width s w i), (nth i s 0, nth (i + w - 1) ext 0)) /\
    forall j, (j < length s)%nat -> width s w i <= width s w j.
Proof.
  intros Hn He s0.
  assert (G : forall k m, (0 < k)%nat ->
    exists i, (m <= i < m + k)%nat /\
      fold_left (hdi_step s ext w) (seq m k) (None, (s0, s0)) =
        (Some (width s w i), (nth i s 0, nth (i + w - 1) ext 0)) /\
      forall j, (m <= j < m + k)%nat -> width s w i <= width s w j).
  { induction k as [|k IH]; intros m Hk; [lia|].
    destruct k as [|k].
    - exists m. split; [lia|]. split.
      + simpl. unfold hdi_step. simpl. unfold width. rewrite <- He. reflexivity.
      + intros j Hj. replace j with m by lia. lra.
    - rewrite seq_S, fold_left_app. destruct (IH m ltac:(lia)) as (i & Hi & E & M).
      rewrite E. simpl fold_left. unfold hdi_step. cbn [fst].
      fold (width s w (m + S k)).
      assert (W : nth (m + S k + w - 1) ext 0 - nth (m + S k) s 0 = width s w (m + S k))
        by (unfold width; rewrite <- He; reflexivity).
      rewrite W. destruct (Rltb_spec (width s w (m + S k)) (width s w i)) as [L|L].
      + exists (m + S k)%nat. split; [lia|]. split; [reflexivity|].
        intros j Hj. destruct (Nat.eq_dec j (m + S k)) as [->|]; [lra|].
        specialize (M j ltac:(lia)). lra.
      + exists i. split; [lia|]. split; [reflexivity|].
        intros j Hj. destruct (Nat.eq_dec j (m + S k)) as [->|]; [lra|]. apply M. lia. }
  destruct (G (length s) 0%nat Hn) as (i & Hi & E & M).
  exists i. split; [lia|]. split; [exact E|]. intros j Hj. apply M. lia.
Qed.
Lemma angmod0_map_wrap l : map angmod0 l = map (fun a => pymod a TP) l.
Proof. apply map_ext. intros a. apply angmod0_eq. Qed.
Lemma hdi_spec samples ci : samples <> [] -> 0 < ci < 1 ->
  exists lo hi L, compute_hdi samples ci = Ok (lo, hi) /\
    0 <= L < 2 * PI /\ same_dir hi (lo + L) /\ 0 <= lo < 2 * PI /\ 0 <= hi < 2 * PI /\
    (exists a, In a samples /\ same_dir lo a) /\ (exists b, In b samples /\ same_dir hi b) /\
    arc_holds samples lo L (hdi_window ci (length samples)) /\
    (forall lo' L', 0 <= L' -> arc_holds samples lo' L' (hdi_window ci (length samples)) -> L <= L').
Proof.
  intros Hne Hci. unfold compute_hdi.
  replace (Rltb 0 ci && Rltb ci 1)%bool with true.
  2:{ symmetry. apply andb_true_intro. split; apply Rltb_true; lra. }
  cbn [negb]. rewrite angmod0_map_wrap. fold (wrapsort samples).
  assert (Hn : (0 < length samples)%nat) by (destruct samples; simpl; [congruence|lia]).
  pose proof (wrapsort_length samples) as N.
  destruct (wrapsort samples) as [|s0 t] eqn:Es; [simpl in N; lia|].
  rewrite <- Es in *. rewrite N. fold (hdi_window ci (length samples)).
  set (w := hdi_window ci (length samples)).
  assert (Hw : (1 <= w <= length samples)%nat).
  { unfold w, hdi_window. split; [lia|].
    assert (0 < INR (length samples)) by (apply lt_0_INR; lia).
    assert (Rfloor (ci * INR (length samples)) <= Z.of_nat (length samples))%Z.
    { rewrite <- (Rfloor_IZR (Z.of_nat (length samples))). apply Rfloor_mono.
      rewrite <- INR_IZR_INZ. nra. }
    lia. }
  rewrite Nat.min_l by lia.
  destruct (hdi_fold (wrapsort samples) (wrapsort samples ++ map (fun x => x + TP) (wrapsort samples)) w
              ltac:(lia) eq_refl s0) as (i & Hi & E & M).
  rewrite N in E, Hi, M. unfold TP in E. rewrite E. cbn [fst snd].
  set (L := width (wrapsort samples) w i).
  destruct (best_window_spec samples w i Hw Hi M) as (B1 & B2 & B3). fold L in B1, B2, B3.
  assert (Hin : In (nth i (wrapsort samples) 0) (wrapsort samples)) by (apply nth_In; lia).
  pose proof (wrapsort_range samples _ Hin) as Rg.
  assert (A : angmod0 (nth i (wrapsort samples) 0) = nth i (wrapsort samples) 0).
  { rewrite angmod0_eq. apply pymod_small. exact Rg. }
  exists (angmod0 (nth i (wrapsort samples) 0)).
  eexists _, L. split; [reflexivity|]. split; [exact B1|]. split.
  - eapply same_dir_trans; [apply angmod0_same_dir|]. rewrite A.
    replace (nth i (wrapsort samples) 0 + L) with
      (nth (i + w - 1) (wrapsort samples ++ map (fun x => x + 2 * PI) (wrapsort samples)) 0)
      by (unfold L, width, TP; ring). apply same_dir_refl.
  - split; [apply angmod0_range|]. split; [apply angmod0_range|]. split.
    + rewrite A. destruct (wrapsort_dir samples _ Hin) as (b & Hb & D). eauto.
    + split.
      * assert (I2 : exists b, In b (wrapsort samples) /\
          same_dir (nth (i + w - 1) (wrapsort samples ++ map (fun x => x + 2 * PI) (wrapsort samples)) 0) b).
        { destruct (lt_dec (i + w - 1) (length samples)).
          - exists (nth (i + w - 1) (wrapsort samples) 0). split; [apply nth_In; lia|].
            rewrite app_nth1 by lia. apply same_dir_refl.
          - exists (nth (i + w - 1 - length samples) (wrapsort samples) 0). split; [apply nth_In; lia|].
            fold TP. change (wrapsort samples ++ map (fun x => x + 2 * PI) (wrapsort samples))
              with (wrapsort samples ++ map (fun x => x + TP) (wrapsort samples)).
            rewrite ext_high by (rewrite N; lia). rewrite N. exists 1%Z. unfold TP. simpl. lra. }
        destruct I2 as (b & Hb & D). destruct (wrapsort_dir samples _ Hb) as (c & Hc & D2).
        exists c. split; [exact Hc|]. eapply same_dir_trans; [apply angmod0_same_dir|].
        eapply same_dir_trans; [exact D|exact D2].
      * rewrite A. split; [exact B2|exact B3].
Qed.
Lemma hdi_errors samples ci :
  (exists e, compute_hdi samples ci = Err e) <-> samples = [] \/ ~ (0 < ci < 1).
Proof.
  split.
  - intros [e E]. destruct samples as [|a l]; [auto|right]. intros Hci.
    destruct (hdi_spec (a :: l) ci ltac:(discriminate) Hci) as (lo & hi & L & E' & _).
    rewrite E' in E. discriminate.
  - intros [->|H].
    + exists ValueError. unfold compute_hdi. destruct (negb _); reflexivity.
    + exists ValueError. unfold compute_hdi.
      destruct (Rltb_spec 0 ci); destruct (Rltb_spec ci 1); simpl; auto. exfalso; apply H; lra.
Qed.
Lemma hdi_error_kind samples ci e : compute_hdi samples ci = Err e -> e = ValueError.
Proof.
  unfold compute_hdi. destruct (negb _); [congruence|].
  destruct (nsort (map angmod0 samples)); congruence.
Qed.

(** * Circular range *)
Lemma diff_length l : length (diff l) = (length l - 1)%nat.
Proof. induction l as [|x [|y l] IH]; simpl in *; auto. rewrite IH. lia. Qed.
Lemma diff_nth l j : (S j < length l)%nat -> nth j (diff l) 0 = nth (S j) l 0 - nth j l 0.
Proof.
  revert j. induction l as [|x [|y l] IH]; simpl; intros j Hj; try lia.
  destruct j as [|j]; [reflexivity|]. apply (IH j). simpl. lia.
Qed.
Lemma diff_sum x l : Rsum (diff (x :: l)) = last (x :: l) 0 - x.
Proof.
  revert x. induction l as [|y l IH]; intros x; [simpl; ring|].
  change (diff (x :: y :: l)) with ((y - x) :: diff (y :: l)).
  rewrite Rsum_cons, IH. change (last (x :: y :: l) 0) with (last (y :: l) 0). ring.
Qed.
Lemma last_nth (l : list R) : last l 0 = nth (length l - 1) l 0.
Proof.
  induction l as [|x [|y l] IH]; [reflexivity|reflexivity|].
  change (last (x :: y :: l) 0) with (last (y :: l) 0). rewrite IH. simpl. now rewrite Nat.sub_0_r.
Qed.
Definition spacings (s : list R) : list R := diff ((last s 0 - TP) :: s).
Lemma spacing_nth s j : (j < length s)%nat ->
  TP - nth j (spacings s) 0 = width s (length s) j.
Proof.
  intros Hj. unfold spacings. rewrite diff_nth by (simpl; lia).
  change (nth (S j) ((last s 0 - TP) :: s) 0) with (nth j s 0).
  unfold width. destruct j as [|j].
  - cbn [nth]. rewrite last_nth. rewrite ext_low by lia. replace (0 + length s - 1)%nat with (length s - 1)%nat by lia. ring.
  - cbn [nth]. rewrite ext_high by lia.
    replace (S j + length s - 1 - length s)%nat with j by lia. ring.
Qed.
Lemma circ_range_best alpha : alpha <> [] ->
  exists i, (i < length alpha)%nat /\
    circ_range alpha = Ok (width (wrapsort alpha) (length alpha) i) /\
    (forall j, (j < length alpha)%nat ->
       width (wrapsort alpha) (length alpha) i <= width (wrapsort alpha) (length alpha) j) /\
    width (wrapsort alpha) (length alpha) i <= TP * (1 - / INR (length alpha)).
Proof.
  intros Hne. assert (Hn : (0 < length alpha)%nat) by (destruct alpha; simpl; [congruence|lia]).
  pose proof (wrapsort_length alpha) as N. unfold circ_range.
  change (nsort (map (fun a => pymod a (2 * PI)) alpha)) with (wrapsort alpha).
  set (s := wrapsort alpha) in *.
  assert (SL : length (spacings s) = length s) by (unfold spacings; rewrite diff_length; simpl; lia).
  destruct s as [|s0 t] eqn:Es; [simpl in N; lia|]. rewrite <- Es in *. clear Es.
  change (diff ((last s 0 - 2 * PI) :: s)) with (spacings s).
  destruct (spacings s) as [|x u] eqn:Ep; [simpl in SL; lia|].
  pose proof (Rlmax_in x u) as I. destruct (Rlmax_ge x u) as [M1 M2].
  assert (ML : forall y, In y (x :: u) -> y <= Rlmax x u).
  { intros y [<-|Hy]; auto. }
  destruct (In_nth _ _ 0 I) as (i & Hi & Ei). rewrite SL, N in Hi.
  assert (W : forall j, (j < length alpha)%nat -> TP - nth j (x :: u) 0 = width s (length alpha) j).
  { intros j Hj. rewrite <- Ep, <- N. apply spacing_nth. lia. }
  exists i. split; [exact Hi|].
  assert (Ew : 2 * PI - Rlmax x u = width s (length alpha) i) by (rewrite <- W by exact Hi; rewrite Ei; reflexivity).
  split; [now rewrite Ew|]. split.
  - intros j Hj. rewrite <- !W by auto. rewrite Ei.
    assert (In (nth j (x :: u) 0) (x :: u)) by (apply nth_In; lia). apply ML in H. lra.
  - rewrite <- Ew.
    assert (T : Rsum (x :: u) = TP).
    { rewrite <- Ep. unfold spacings. rewrite diff_sum.
      destruct s as [|a b]; [simpl in N; lia|].
      change (last (last (a :: b) 0 - TP :: a :: b) 0) with (last (a :: b) 0). ring. }
    assert (B : Rsum (x :: u) <= Rlmax x u * INR (length alpha)).
    { rewrite <- N, <- SL, <- (Rsum_map_const (Rlmax x u)).
      rewrite <- (map_id (x :: u)) at 1. apply Rsum_map_le. exact ML. }
    assert (P : 0 < INR (length alpha)) by (apply lt_0_INR; lia).
    rewrite T in B. unfold TP in *.
    assert (2 * PI / INR (length alpha) <= Rlmax x u).
    { apply Rmult_le_reg_r with (INR (length alpha)); [exact P|].
      unfold Rdiv. rewrite Rmult_assoc, Rinv_l by lra. lra. }
    unfold Rdiv in *. lra.
Qed.
Lemma circ_range_spec alpha : alpha <> [] ->
  exists L, circ_range alpha = Ok L /\ least_cover alpha L /\ L <= 2 * PI * (1 - / INR (length alpha)).
Proof.
  intros Hne. assert (Hn : (0 < length alpha)%nat) by (destruct alpha; simpl; [congruence|lia]).
  destruct (circ_range_best alpha Hne) as (i & Hi & E & M & U).
  destruct (best_window_spec alpha (length alpha) i ltac:(lia) Hi M) as (B1 & B2 & B3).
  exists (width (wrapsort alpha) (length alpha) i). split; [exact E|]. split; [|exact U].
  split; [apply B1|]. split; [eexists; exact B2|exact B3].
Qed.
Lemma least_cover_unique alpha L L' : least_cover alpha L -> least_cover alpha L' -> L = L'.
Proof.
  intros (P1 & (lo1 & H1) & M1) (P2 & (lo2 & H2) & M2).
  pose proof (M1 lo2 L' P2 H2). pose proof (M2 lo1 L P1 H1). lra.
Qed.
(** Covering arcs under transformations of the sample. *)
Lemma in_arc_dir lo L a b : same_dir a b -> in_arc lo L a -> in_arc lo L b.
Proof.
  intros D (t & Ht & E). exists t. split; [exact Ht|].
  eapply same_dir_trans; [apply same_dir_sym, D|exact E].
Qed.
Lemma cover_all alpha lo L :
  arc_holds alpha lo L (length alpha) <-> Forall (in_arc lo L) alpha.
Proof.
  split.
  - intros (ins & out & P & Hk & F). pose proof (Permutation_length P) as PL.
    rewrite app_length in PL. assert (out = []) by (destruct out; simpl in *; [auto|lia]). subst.
    rewrite app_nil_r in P. rewrite Forall_forall in *. intros x Hx. apply F.
    eapply Permutation_in; eauto.
  - intros F. exists alpha, []. rewrite app_nil_r. auto.
Qed.
Lemma least_cover_iff alpha L : least_cover alpha L <->
  0 <= L /\ (exists lo, Forall (in_arc lo L) alpha) /\
  (forall lo L', 0 <= L' -> Forall (in_arc lo L') alpha -> L <= L').
Proof.
  unfold least_cover. split; intros (H0 & (lo & H1) & H2); split; auto; split.
  - exists lo. now apply cover_all.
  - intros lo' L' P F. apply (H2 lo'); auto. now apply cover_all.
  - exists lo. now apply cover_all.
  - intros lo' L' P F. apply (H2 lo'); auto. now apply cover_all.
Qed.
Lemma least_cover_transfer (al be : list R) (f g : R -> R -> R) L :
  (forall lo L', 0 <= L' -> Forall (in_arc lo L') al -> Forall (in_arc (f lo L') L') be) ->
  (forall lo L', 0 <= L' -> Forall (in_arc lo L') be -> Forall (in_arc (g lo L') L') al) ->
  least_cover al L -> least_cover be L.
Proof.
  intros Hf Hg. rewrite !least_cover_iff. intros (H0 & (lo & H1) & H2).
  split; [exact H0|]. split; [exists (f lo L); auto|].
  intros lo' L' P F. apply (H2 (g lo' L')); auto.
Qed.
Lemma cover_turned al be L : turned al be -> least_cover al L -> least_cover be L.
Proof.
  intros T. apply (least_cover_transfer al be (fun lo _ => lo) (fun lo _ => lo)).
  - intros lo L' _ F. induction T as [|x y l m D T IH]; inversion F; subst; constructor; auto.
    eapply in_arc_dir; eauto.
  - intros lo L' _ F. induction T as [|x y l m D T IH]; inversion F; subst; constructor; auto.
    eapply in_arc_dir; [apply same_dir_sym, D|assumption].
Qed.
Lemma cover_perm al be L : Permutation al be -> least_cover al L -> least_cover be L.
Proof.
  intros P. apply (least_cover_transfer al be (fun lo _ => lo) (fun lo _ => lo)); intros lo L' _ F.
  - rewrite Forall_forall in *. intros x Hx. apply F. eapply Permutation_in; [apply Permutation_sym, P|auto].
  - rewrite Forall_forall in *. intros x Hx. apply F. eapply Permutation_in; [apply P|auto].
Qed.
Lemma cover_rot al t L : least_cover al L -> least_cover (map (fun a => a + t) al) L.
Proof.
  apply (least_cover_transfer al _ (fun lo _ => lo + t) (fun lo _ => lo - t)); intros lo L' _ F;
    rewrite Forall_forall in *.
  - intros x Hx. apply in_map_iff in Hx. destruct Hx as (a & <- & Ha).
    destruct (F a Ha) as (u & Hu & (k & E)). exists u. split; auto. exists k. lra.
  - intros a Ha. destruct (F (a + t)) as (u & Hu & (k & E)); [apply in_map_iff; eauto|].
    exists u. split; auto. exists k. lra.
Qed.
Lemma in_arc_opp lo L a : in_arc lo L a -> in_arc (- (lo + L)) L (- a).
Proof.
  intros (u & Hu & (k & E)). exists (L - u). split; [lra|]. exists (- k)%Z. rewrite opp_IZR. lra.
Qed.
Lemma cover_refl al L : least_cover al L -> least_cover (map Ropp al) L.
Proof.
  apply (least_cover_transfer al _ (fun lo L => - (lo + L)) (fun lo L => - (lo + L))); intros lo L' _ F;
    rewrite Forall_forall in *.
  - intros x Hx. apply in_map_iff in Hx. destruct Hx as (a & <- & Ha). apply in_arc_opp, F, Ha.
  - intros a Ha. rewrite <- (Ropp_involutive a). apply in_arc_opp, F. apply in_map_iff; eauto.
Qed.
Lemma circ_range_transfer al be : al <> [] -> be <> [] ->
  (forall L, least_cover al L -> least_cover be L) -> circ_range be = circ_range al.
Proof.
  intros Ha Hb H. destruct (circ_range_spec al Ha) as (L & -> & H1 & _).
  destruct (circ_range_spec be Hb) as (L' & -> & H2 & _).
  f_equal. apply (least_cover_unique be); auto.
Qed.
Lemma circ_range_invariant :
  (forall alpha t, alpha <> [] -> circ_range (map (fun a => a + t) alpha) = circ_range alpha) /\
  (forall alpha, alpha <> [] -> circ_range (map Ropp alpha) = circ_range alpha) /\
  (forall alpha alpha', alpha <> [] -> turned alpha alpha' -> circ_range alpha' = circ_range alpha) /\
  (forall alpha alpha', alpha <> [] -> Permutation alpha alpha' -> circ_range alpha' = circ_range alpha).
Proof.
  split; [|split; [|split]].
  - intros al t H. apply circ_range_transfer; auto; [destruct al; simpl; congruence|].
    intros L. apply cover_rot.
  - intros al H. apply circ_range_transfer; auto; [destruct al; simpl; congruence|].
    intros L. apply cover_refl.
  - intros al be H T. apply circ_range_transfer; auto.
    + destruct T; congruence.
    + intros L. apply cover_turned, T.
  - intros al be H P. apply circ_range_transfer; auto.
    + intros ->. apply Permutation_sym, Permutation_nil in P. congruence.
    + intros L. apply cover_perm, P.
Qed.
