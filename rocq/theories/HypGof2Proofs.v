(** Invariance, bounds and extremal cases of the Kuiper, Watson and Rao statistics. *)
From Verif Require Import Prelude NpModel NpProofs CircleSpec UtilsModel UtilsProofs
  DescModel DescProofs DescSpec DescApi Desc2Model Desc2Spec ArcProofs Desc3Proofs Desc6Proofs
  HypModel HypSpec HypProofs HypGofModel HypGofSpec HypGofProofs.
From Coq Require Import Sorted.

Lemma osc_rot k c l : l <> [] -> osc (map (fun d => d + c) (rotl k l)) = osc l.
Proof. intros H. rewrite osc_shift by (apply rotl_nonempty, H). apply osc_perm, rotl_perm. Qed.
Lemma rev_nonempty (l : list R) : l <> [] -> rev l <> [].
Proof. intros H E. apply (f_equal (@length R)) in E. rewrite rev_length in E. destruct l; [congruence|discriminate]. Qed.
Lemma osc_mirror c l : l <> [] -> osc (map (fun d => c - d) (rev l)) = osc l.
Proof. intros H. rewrite osc_flip by (apply rev_nonempty, H). apply osc_perm, Permutation_sym, Permutation_rev. Qed.
Lemma ssd_rot k c l : l <> [] -> ssd (map (fun d => d + c) (rotl k l)) = ssd l.
Proof.
  intros H. rewrite (map_ext (fun d => d + c) (fun d => 1 * d + c)) by (intros; ring).
  rewrite ssd_affine by (apply rotl_nonempty, H). rewrite (ssd_perm _ _ (rotl_perm k l)). ring.
Qed.
Lemma ssd_mirror c l : l <> [] -> ssd (map (fun d => c - d) (rev l)) = ssd l.
Proof.
  intros H. rewrite (map_ext (fun d => c - d) (fun d => (-1) * d + c)) by (intros; ring).
  rewrite ssd_affine by (apply rev_nonempty, H). rewrite (ssd_perm _ _ (Permutation_sym (Permutation_rev l))). ring.
Qed.
Lemma cd_rot k c l : l <> [] -> absum (cdiff (map (fun d => d + c) (rotl k l))) = absum (cdiff l).
Proof. intros _. rewrite cdiff_shift. apply absum_perm, cdiff_rotl. Qed.
Lemma cd_mirror c l : l <> [] -> absum (cdiff (map (fun d => c - d) (rev l))) = absum (cdiff l).
Proof.
  intros _. rewrite cdiff_flip, absum_opp. rewrite (absum_perm _ _ (cdiff_rev l)). apply absum_opp.
Qed.
Lemma turned_by_len t a b : turned_by t a b -> length b = length a.
Proof. intros H. symmetry. apply (Forall2_len _ _ _ H). Qed.
Lemma mirrored_len t a b : mirrored t a b -> length b = length a.
Proof. intros H. symmetry. apply (Forall2_len _ _ _ H). Qed.
Lemma same_len_nonempty (a b : list R) : length b = length a -> a <> [] -> b <> [].
Proof. intros H Ha ->. destruct a; [congruence|discriminate]. Qed.

Definition gof_invariant (S : list R -> R) : Prop :=
  (forall t a b, a <> [] -> within_turn a -> within_turn b -> turned_by t a b -> S b = S a) /\
  (forall t a b, a <> [] -> within_turn a -> within_turn b -> mirrored t a b -> S b = S a) /\
  (forall a b, Permutation a b -> S b = S a).
Lemma kuiper_invariant : gof_invariant kuiper_V.
Proof.
  repeat split.
  - intros t a b Hn Wa Wb H. pose proof (turned_by_len _ _ _ H) as L.
    rewrite !kuiper_V_dev by eauto using same_len_nonempty.
    rewrite L. now rewrite (T_turned osc osc_rot t a b Hn Wa Wb H).
  - intros t a b Hn Wa Wb H. pose proof (mirrored_len _ _ _ H) as L.
    rewrite !kuiper_V_dev by eauto using same_len_nonempty.
    rewrite L. now rewrite (T_mirrored osc osc_rot osc_mirror t a b Hn Wa Wb H).
  - intros a b P. unfold kuiper_V. now rewrite (sort_perm_eq _ _ P), (Permutation_length P).
Qed.
Lemma watson_invariant : gof_invariant watson_U2.
Proof.
  repeat split.
  - intros t a b Hn Wa Wb H. pose proof (turned_by_len _ _ _ H) as L.
    rewrite !watson_U2_dev by eauto using same_len_nonempty.
    rewrite L. now rewrite (T_turned ssd ssd_rot t a b Hn Wa Wb H).
  - intros t a b Hn Wa Wb H. pose proof (mirrored_len _ _ _ H) as L.
    rewrite !watson_U2_dev by eauto using same_len_nonempty.
    rewrite L. now rewrite (T_mirrored ssd ssd_rot ssd_mirror t a b Hn Wa Wb H).
  - intros a b P. unfold watson_U2. now rewrite (sort_perm_eq _ _ P), (Permutation_length P).
Qed.
Lemma rao_invariant : gof_invariant rao_U.
Proof.
  repeat split.
  - intros t a b Hn Wa Wb H. pose proof (turned_by_len _ _ _ H) as L.
    rewrite !rao_U_dev by eauto using same_len_nonempty.
    now rewrite (T_turned (fun l => absum (cdiff l)) cd_rot t a b Hn Wa Wb H).
  - intros t a b Hn Wa Wb H. pose proof (mirrored_len _ _ _ H) as L.
    rewrite !rao_U_dev by eauto using same_len_nonempty.
    now rewrite (T_mirrored (fun l => absum (cdiff l)) cd_rot cd_mirror t a b Hn Wa Wb H).
  - intros a b P. unfold rao_U. now rewrite (sort_perm_eq _ _ P), (Permutation_length P).
Qed.

(** ** Extremal cases *)
Definition constant (l : list R) : Prop := forall x y, In x l -> In y l -> x = y.
Lemma osc_nonneg l : l <> [] -> 0 <= osc l.
Proof. intros H. destruct l as [|x l]; [congruence|]. pose proof (osc_ge (x :: l) x x (or_introl eq_refl) (or_introl eq_refl)). lra. Qed.
Lemma osc_zero l : l <> [] -> (osc l = 0 <-> constant l).
Proof.
  intros H. split.
  - intros E x y Hx Hy. pose proof (osc_ge l x y Hx Hy). pose proof (osc_ge l y x Hy Hx). lra.
  - intros K. destruct (osc_attained l H) as (x & y & Hx & Hy & E). rewrite E, (K x y Hx Hy). ring.
Qed.
Lemma ssd_nonneg l : 0 <= ssd l.
Proof. apply Rsum_map_nonneg. intros x _. apply pow2_ge_0. Qed.
Lemma ssd_zero l : l <> [] -> (ssd l = 0 <-> constant l).
Proof.
  intros H. split.
  - intros E. assert (K : forall x, In x l -> x = mean l).
    { intros x Hx. pose proof (Rsum_map_0 (fun d => (d - mean l) ^ 2) l (fun x _ => pow2_ge_0 _) E x Hx) as Q. cbn beta in Q.
      assert (x - mean l = 0); [|lra]. destruct (Req_dec (x - mean l) 0) as [Z|N]; [exact Z|].
      exfalso. apply (pow_nonzero _ 2) in N. contradiction. }
    intros x y Hx Hy. now rewrite (K x Hx), (K y Hy).
  - intros K. unfold ssd. assert (E : forall x, In x l -> mean l = x).
    { intros x Hx. unfold mean. rewrite <- (map_id l) at 1. rewrite (Rsum_map_ext (fun y => y) (fun _ => x)).
      - rewrite Rsum_map_const. field. apply not_0_INR. destruct l; [congruence|discriminate].
      - intros y Hy. apply K; assumption. }
    rewrite (Rsum_map_ext _ (fun _ => 0)).
    + rewrite Rsum_map_const. ring.
    + intros x Hx. rewrite (E x Hx). ring.
Qed.
Lemma devs_const_inv i h l c : Forall (fun d => d = c) (devs i h l) ->
  l = map (fun j => c + (i + INR j) * h) (seq 0 (length l)).
Proof.
  revert i. induction l as [|x l IH]; intros i H; [reflexivity|]. cbn [devs] in H. inversion H as [|? ? H1 H2]; subst.
  cbn [length seq map]. f_equal; [simpl; ring|]. rewrite (IH (i + 1) H2) at 1. rewrite <- seq_shift, map_map.
  apply map_ext. intros j. rewrite S_INR. ring.
Qed.
Lemma devs_grid i h c n : Forall (fun d => d = c - i * h) (devs i h (map (fun j => c + INR j * h) (seq 0 n))).
Proof.
  assert (G : forall k i, Forall (fun d => d = c + INR k * h - i * h) (devs i h (map (fun j => c + INR j * h) (seq k n)))).
  { induction n as [|n IH]; intros k i0; [constructor|]. cbn [seq map devs]. constructor; [reflexivity|].
    eapply Forall_impl; [|apply IH]. cbn beta. intros d ->. rewrite S_INR. ring. }
  eapply Forall_impl; [|apply (G 0%nat i)]. cbn beta. intros d ->. simpl. ring.
Qed.
Lemma grid_sorted h c n k : 0 <= h -> StronglySorted Rle (map (fun j => c + INR j * h) (seq k n)).
Proof.
  intros Hh. revert k. induction n as [|n IH]; intros k; [constructor|]. cbn [seq map]. constructor; [apply IH|].
  apply Forall_forall. intros y Hy. apply in_map_iff in Hy. destruct Hy as (j & <- & Hj). apply in_seq in Hj.
  assert (INR k <= INR j) by (apply le_INR; lia). nra.
Qed.
Definition grid (n : nat) : list R := map (fun j => 0 + INR j * (TP / INR n)) (seq 0 n).
Lemma grid_dev n : (0 < n)%nat -> constant (dev (grid n)).
Proof.
  intros Hn. unfold dev. assert (L : length (grid n) = n) by (unfold grid; now rewrite map_length, seq_length).
  rewrite L. pose proof TP_pos. assert (0 < INR n) by (apply lt_0_INR, Hn).
  rewrite sort_id by (apply grid_sorted, Rlt_le, Rdiv_lt_0_compat; assumption).
  pose proof (devs_grid 1 (TP / INR n) 0 n) as F. rewrite Forall_forall in F.
  intros x y Hx Hy. rewrite (F x Hx), (F y Hy). reflexivity.
Qed.
Lemma grid_within n : (0 < n)%nat -> within_turn (grid n).
Proof.
  intros Hn a b Ha Hb. fold TP. pose proof TP_pos as Hp. assert (Hi : 0 < INR n) by (apply lt_0_INR, Hn).
  apply in_map_iff in Ha. apply in_map_iff in Hb. destruct Ha as (i & <- & Hi1). destruct Hb as (j & <- & Hj1).
  apply in_seq in Hi1. apply in_seq in Hj1. assert (INR i < INR n) by (apply lt_INR; lia).
  pose proof (pos_INR j). assert (0 < TP / INR n) by (apply Rdiv_lt_0_compat; assumption).
  assert (INR n * (TP / INR n) = TP) by (field; lra). nra.
Qed.
Lemma within_perm a b : Permutation a b -> within_turn a -> within_turn b.
Proof. intros P W x y Hx Hy. apply W; apply (Permutation_in _ (Permutation_sym P)); assumption. Qed.
Lemma equally_spaced_iff s : s <> [] -> within_turn s -> (equally_spaced s <-> constant (dev s)).
Proof.
  intros Hn W. assert (Hl : (0 < length s)%nat) by (destruct s; [congruence|simpl; lia]).
  assert (Hd : dev s <> []) by (apply dev_nonempty, Hn). split.
  - intros (c & l & P & F). rewrite <- osc_zero by exact Hd.
    rewrite <- (dev_perm _ _ P). assert (L : length l = length s) by (symmetry; apply Permutation_length, P).
    rewrite (T_turned osc osc_rot c (grid (length s)) l).
    + apply osc_zero; [apply dev_nonempty|apply grid_dev, Hl]. unfold grid. destruct (length s); [lia|discriminate].
    + unfold grid. destruct (length s); [lia|discriminate].
    + apply grid_within, Hl.
    + eapply within_perm; eauto.
    + unfold turned_by, grid. clear - F. revert F. generalize (seq 0 (length s)) as q. generalize (length s) as n.
      intros n q. revert l. induction q as [|j q IH]; intros l F; inversion F; subst; constructor; auto.
      match goal with H : same_dir _ _ |- _ => destruct H as [k E] end. exists k. unfold TP in *. rewrite E. unfold Rdiv. ring.
  - intros K. destruct (dev s) as [|c d] eqn:E; [congruence|].
    assert (F : Forall (fun x => x = c) (dev s)).
    { rewrite E. apply Forall_forall. intros x Hx. apply K; [exact Hx|left; reflexivity]. }
    apply devs_const_inv in F. rewrite sort_length in F.
    exists (c + TP / INR (length s)), (nsort s). split; [apply sort_perm|]. rewrite F.
    generalize (seq 0 (length s)) as q. intros q. induction q as [|j q IH]; constructor; auto.
    exists 0%Z. unfold TP. unfold Rdiv. ring.
Qed.
Lemma devs_in i h l d : In d (devs i h l) <-> exists j, (j < length l)%nat /\ d = nth j l 0 - (i + INR j) * h.
Proof.
  revert i. induction l as [|x l IH]; intros i; cbn [devs length].
  - split; [intros []|intros (j & Hj & _); lia].
  - split.
    + intros [<-|H]; [exists 0%nat; split; [lia|simpl; ring]|].
      apply IH in H. destruct H as (j & Hj & ->). exists (S j). split; [lia|]. rewrite S_INR. cbn [nth]. ring.
    + intros (j & Hj & ->). destruct j as [|j]; [left; simpl; ring|]. right. apply IH. exists j. split; [lia|].
      rewrite S_INR. cbn [nth]. ring.
Qed.
Lemma dev_osc_le s : s <> [] -> within_turn s -> osc (dev s) <= TP - TP / INR (length s).
Proof.
  intros Hn W. pose proof TP_pos as Hp.
  assert (Hl : 0 < INR (length s)) by (apply lt_0_INR; destruct s; [congruence|simpl; lia]).
  set (h := TP / INR (length s)). assert (Hh : 0 < h) by (apply Rdiv_lt_0_compat; assumption).
  assert (Eh : INR (length s) * h = TP) by (unfold h; field; lra).
  destruct (osc_attained (dev s) (dev_nonempty s Hn)) as (x & y & Hx & Hy & ->).
  unfold dev in Hx, Hy. fold h in Hx, Hy. apply devs_in in Hx. apply devs_in in Hy.
  rewrite sort_length in Hx, Hy. destruct Hx as (i & Hi & ->). destruct Hy as (j & Hj & ->).
  assert (Ii : In (nth i (nsort s) 0) s) by (apply sort_in, nth_In; now rewrite sort_length).
  assert (Ij : In (nth j (nsort s) 0) s) by (apply sort_in, nth_In; now rewrite sort_length).
  destruct (Nat.lt_trichotomy i j) as [L|[->|L]].
  - pose proof (sorted_nth s (nsort s) (sort_sorted s) i j) as M. rewrite sort_length in M. specialize (M ltac:(lia)).
    assert (INR j - INR i <= INR (length s) - 1).
    { assert (INR j + 1 <= INR (length s)) by (rewrite <- S_INR; apply le_INR; lia). pose proof (pos_INR i). lra. }
    nra.
  - assert (1 <= INR (length s)) by (apply (le_INR 1); lia). nra.
  - specialize (W _ _ Ii Ij). fold TP in W. assert (INR j + 1 <= INR i) by (rewrite <- S_INR; apply le_INR; lia). nra.
Qed.
Lemma dev_osc_max s : s <> [] -> within_turn s -> (osc (dev s) = TP - TP / INR (length s) <-> coincident s).
Proof.
  intros Hn W. pose proof TP_pos as Hp.
  assert (Hl : 0 < INR (length s)) by (apply lt_0_INR; destruct s; [congruence|simpl; lia]).
  set (h := TP / INR (length s)). assert (Hh : 0 < h) by (apply Rdiv_lt_0_compat; assumption).
  assert (Eh : INR (length s) * h = TP) by (unfold h; field; lra). split.
  - intros E. destruct (osc_attained (dev s) (dev_nonempty s Hn)) as (x & y & Hx & Hy & E2). rewrite E2 in E.
    unfold dev in Hx, Hy. fold h in Hx, Hy. apply devs_in in Hx. apply devs_in in Hy.
    rewrite sort_length in Hx, Hy. destruct Hx as (i & Hi & ->). destruct Hy as (j & Hj & ->).
    assert (Ii : In (nth i (nsort s) 0) s) by (apply sort_in, nth_In; now rewrite sort_length).
    assert (Ij : In (nth j (nsort s) 0) s) by (apply sort_in, nth_In; now rewrite sort_length).
    assert (Q : (i <= j)%nat).
    { destruct (Nat.le_gt_cases i j) as [L|L]; [exact L|]. exfalso.
      specialize (W _ _ Ii Ij). fold TP in W. assert (INR j + 1 <= INR i) by (rewrite <- S_INR; apply le_INR; lia). nra. }
    pose proof (sorted_nth s (nsort s) (sort_sorted s)) as M. rewrite sort_length in M.
    pose proof (M i j ltac:(lia)) as Mij.
    assert (J1 : INR j + 1 <= INR (length s)) by (rewrite <- S_INR; apply le_INR; lia). pose proof (pos_INR i) as I0.
    assert (Zi : INR i = 0) by nra. assert (Zj : INR j = INR (length s) - 1) by nra.
    assert (Eq : nth i (nsort s) 0 = nth j (nsort s) 0) by nra.
    assert (i = 0)%nat as -> by (apply INR_eq; rewrite Zi; reflexivity).
    assert (j = length s - 1)%nat as ->.
    { apply INR_eq. rewrite Zj, minus_INR by lia. reflexivity. }
    assert (Al : forall a, In a s -> a = nth 0 (nsort s) 0).
    { intros a Ha. apply sort_in in Ha. apply (In_nth _ _ 0) in Ha. destruct Ha as (k & Hk & <-). rewrite sort_length in Hk.
      apply Rle_antisym; [rewrite Eq|]; apply M; lia. }
    intros a b Ha Hb. now rewrite (Al a Ha), (Al b Hb).
  - intros K. apply Rle_antisym; [apply dev_osc_le; assumption|].
    assert (N0 : (0 < length s)%nat) by (destruct s; [congruence|simpl; lia]).
    set (x := nth 0 (nsort s) 0 - (1 + INR 0) * h). set (y := nth (length s - 1) (nsort s) 0 - (1 + INR (length s - 1)) * h).
    assert (Hx : In x (dev s)) by (apply devs_in; exists 0%nat; rewrite sort_length; split; [lia|reflexivity]).
    assert (Hy : In y (dev s)) by (apply devs_in; exists (length s - 1)%nat; rewrite sort_length; split; [lia|reflexivity]).
    pose proof (osc_ge _ _ _ Hx Hy) as G. unfold x, y in G.
    rewrite (K (nth (length s - 1) (nsort s) 0) (nth 0 (nsort s) 0)) in G by (apply sort_in, nth_In; rewrite sort_length; lia).
    rewrite minus_INR in G by lia. simpl in G. nra.
Qed.
Lemma kuiper_f_pos n : 0 < n -> 0 < kuiper_f n.
Proof.
  intros H. unfold kuiper_f. pose proof (sqrt_lt_R0 n H) as S. assert (0 < 24 / 100 / sqrt n) by (apply Rdiv_lt_0_compat; lra). lra.
Qed.
Lemma kuiper_bounds s : s <> [] -> within_turn s ->
  let n := INR (length s) in
  kuiper_f n / n <= kuiper_V s <= kuiper_f n /\
  (kuiper_V s = kuiper_f n / n <-> equally_spaced s) /\
  (kuiper_V s = kuiper_f n <-> coincident s).
Proof.
  intros Hn W n. pose proof TP_pos as Hp.
  assert (Hl : 0 < n) by (apply lt_0_INR; destruct s; [congruence|simpl; lia]).
  pose proof (kuiper_f_pos n Hl) as Hf. rewrite (kuiper_V_dev s Hn). fold n.
  pose proof (dev_osc_le s Hn W) as U. fold n in U. pose proof (osc_nonneg _ (dev_nonempty s Hn)) as L.
  assert (L' : 0 <= osc (dev s) / TP) by (apply Rmult_le_pos; [exact L|left; apply Rinv_0_lt_compat, Hp]).
  assert (U' : osc (dev s) / TP <= 1 - / n).
  { apply Rmult_le_reg_r with TP; [exact Hp|]. replace (osc (dev s) / TP * TP) with (osc (dev s)) by (field; lra).
    unfold Rdiv in U. lra. }
  split; [split; [unfold Rdiv at 1; nra|nra]|]. split.
  - rewrite equally_spaced_iff, <- osc_zero by (auto using dev_nonempty). split.
    + intros E. assert (osc (dev s) / TP = 0) by (unfold Rdiv in E at 1; nra).
      replace (osc (dev s)) with (osc (dev s) / TP * TP) by (field; lra). rewrite H. ring.
    + intros ->. field. lra.
  - rewrite <- dev_osc_max by assumption. fold n. split.
    + intros E. assert (osc (dev s) / TP = 1 - / n) by nra.
      replace (osc (dev s)) with (osc (dev s) / TP * TP) by (field; lra). rewrite H. field. lra.
    + intros ->. field. lra.
Qed.
Lemma watson_bounds s : s <> [] -> within_turn s ->
  1 / (12 * INR (length s)) <= watson_U2 s /\
  (watson_U2 s = 1 / (12 * INR (length s)) <-> equally_spaced s).
Proof.
  intros Hn W. pose proof TP_pos as Hp. rewrite (watson_U2_dev s Hn).
  pose proof (ssd_nonneg (dev s)) as L. assert (P2 : 0 < TP ^ 2) by (apply pow_lt, Hp).
  assert (L' : 0 <= ssd (dev s) / TP ^ 2) by (apply Rmult_le_pos; [exact L|left; apply Rinv_0_lt_compat, P2]).
  split; [lra|]. rewrite equally_spaced_iff, <- ssd_zero by (auto using dev_nonempty). split.
  - intros E. assert (E0 : ssd (dev s) / TP ^ 2 = 0) by lra.
    replace (ssd (dev s)) with (ssd (dev s) / TP ^ 2 * TP ^ 2) by (field; lra). rewrite E0. ring.
  - intros ->. unfold Rdiv. ring.
Qed.

(** ** Rao's spacing statistic *)
Lemma spacing_sum g h n : length g = n -> Rsum g = INR n * h ->
  / 2 * Rsum (map (fun x => Rabs (x - h)) g) = INR n * h - Rsum (map (fun x => Rmin x h) g).
Proof.
  intros L S. rewrite (Rsum_map_ext (fun x => Rabs (x - h)) (fun x => (x + h) - 2 * Rmin x h)).
  - rewrite Rsum_map_minus, Rsum_map_plus, Rsum_map_scal, Rsum_map_const, map_id, S, L. field.
  - intros x _. unfold Rabs, Rmin. destruct Rcase_abs, Rle_dec; lra.
Qed.
Lemma avg_exists g h : g <> [] -> Rsum g = INR (length g) * h -> exists a x b, g = a ++ x :: b /\ h <= x.
Proof.
  intros Hn S. destruct (Exists_dec (fun x => h <= x) g) as [H|H]; [intros x; destruct (Rle_dec h x); auto| |].
  - apply Exists_exists in H. destruct H as (x & Hx & Hh). apply in_split in Hx. destruct Hx as (a & b & E). exists a, x, b. auto.
  - exfalso. assert (K : forall x, In x g -> x < h).
    { intros x Hx. destruct (Rlt_le_dec x h); [assumption|]. exfalso. apply H, Exists_exists. eauto. }
    clear H. assert (G : Rsum g < INR (length g) * h); [|lra]. clear S.
    induction g as [|x g IH]; [congruence|]. rewrite Rsum_cons. cbn [length]. rewrite S_INR.
    pose proof (K x (or_introl eq_refl)). destruct g as [|y g]; [simpl; lra|].
    assert (Rsum (y :: g) < INR (length (y :: g)) * h) by (apply IH; [discriminate|intros; apply K; right; assumption]). lra.
Qed.
Lemma spacing_bound g h : g <> [] -> 0 < h -> (forall x, In x g -> 0 <= x) -> Rsum g = INR (length g) * h ->
  let U := / 2 * Rsum (map (fun x => Rabs (x - h)) g) in
  0 <= U <= (INR (length g) - 1) * h /\ (U = 0 <-> forall x, In x g -> x = h) /\
  (U = (INR (length g) - 1) * h <-> exists a x b, g = a ++ x :: b /\ forall y, In y (a ++ b) -> y = 0).
Proof.
  intros Hn Hh Hp S U. assert (U0 : forall x, In x g -> 0 <= Rabs (x - h)) by (intros; apply Rabs_pos).
  assert (Q : forall a x b, g = a ++ x :: b -> h <= x -> U = (INR (length g) - 1) * h - Rsum (map (fun x => Rmin x h) (a ++ b))).
  { intros a x b E Hx. unfold U. rewrite (spacing_sum g h _ eq_refl S). rewrite E at 2. rewrite !map_app. cbn [map].
    rewrite !Rsum_app, Rsum_cons. rewrite (Rmin_right x h) by lra. ring. }
  assert (N : forall a x b, g = a ++ x :: b -> forall y, In y (a ++ b) -> 0 <= Rmin y h).
  { intros a x b E y Hy. apply Rmin_glb; [|lra]. apply Hp. rewrite E. apply in_app_or in Hy. apply in_or_app.
    destruct Hy; [left; assumption|right; right; assumption]. }
  destruct (avg_exists g h Hn S) as (a & x & b & E & Hx). split; [split|split].
  - unfold U. pose proof (Rsum_map_nonneg _ _ U0). lra.
  - rewrite (Q a x b E Hx). pose proof (Rsum_map_nonneg _ _ (N a x b E)). lra.
  - split.
    + intros Z y Hy. unfold U in Z. assert (Z' : Rsum (map (fun x => Rabs (x - h)) g) = 0) by lra.
      pose proof (Rsum_map_0 _ _ U0 Z' y Hy) as A. cbn beta in A.
      destruct (Req_dec (y - h) 0) as [|D]; [lra|]. apply Rabs_no_R0 in D. contradiction.
    + intros K. unfold U. rewrite (Rsum_map_ext _ (fun _ => 0)); [rewrite Rsum_map_const; ring|].
      intros y Hy. rewrite (K y Hy), Rminus_diag_eq by reflexivity. apply Rabs_R0.
  - split.
    + intros Z. exists a, x, b. split; [exact E|]. rewrite (Q a x b E Hx) in Z.
      assert (Z' : Rsum (map (fun x => Rmin x h) (a ++ b)) = 0) by lra.
      intros y Hy. pose proof (Rsum_map_0 _ _ (N a x b E) Z' y Hy) as A. cbn beta in A.
      unfold Rmin in A. destruct Rle_dec; lra.
    + intros (a' & x' & b' & E' & K).
      assert (Sx : x' = INR (length g) * h).
      { rewrite <- S, E', Rsum_app, Rsum_cons. rewrite <- (map_id a'), <- (map_id b').
        rewrite (Rsum_map_ext (fun y => y) (fun _ => 0) a'), (Rsum_map_ext (fun y => y) (fun _ => 0) b').
        - rewrite !Rsum_map_const. ring.
        - intros y Hy. apply K, in_or_app. auto.
        - intros y Hy. apply K, in_or_app. auto. }
      assert (L1 : 1 <= INR (length g)) by (apply (le_INR 1); destruct g; [congruence|simpl; lia]).
      rewrite (Q a' x' b' E'); [|rewrite Sx; nra].
      rewrite (Rsum_map_ext _ (fun _ => 0)); [rewrite Rsum_map_const; ring|].
      intros y Hy. rewrite (K y Hy). apply Rmin_left. lra.
Qed.
Definition rspacings (s : list R) : list R := diff (nsort s) ++ [TP - last (nsort s) 0 + hd 0 (nsort s)].
Lemma rao_U_spacings s : rao_U s = / 2 * Rsum (map (fun x => Rabs (x - TP / INR (length s))) (rspacings s)).
Proof. reflexivity. Qed.
Lemma rspacings_len s : s <> [] -> length (rspacings s) = length s.
Proof.
  intros Hn. unfold rspacings. rewrite app_length, diff_length, sort_length. simpl.
  destruct s; [congruence|simpl; lia].
Qed.
Lemma rspacings_sum s : s <> [] -> Rsum (rspacings s) = TP.
Proof.
  intros Hn. unfold rspacings. rewrite Rsum_app, Rsum_cons, Rsum_nil.
  destruct (nsort s) as [|x l] eqn:E; [exfalso; apply Hn, length_zero_iff_nil; now rewrite <- sort_length, E|].
  rewrite diff_sum. cbn [hd]. ring.
Qed.
Lemma diff_sorted_nonneg l : StronglySorted Rle l -> forall x, In x (diff l) -> 0 <= x.
Proof.
  induction 1 as [|x l Hs IH Fx]; [intros y []|]. destruct l as [|y l]; [intros z []|].
  cbn [diff]. intros z [<-|Hz]; [inversion Fx; lra|apply IH, Hz].
Qed.
Lemma last_in (l : list R) : l <> [] -> In (last l 0) l.
Proof. intros H. rewrite last_nth. apply nth_In. destruct l; [congruence|simpl; lia]. Qed.
Lemma wrap_gap_pos s : s <> [] -> within_turn s -> 0 < TP - last (nsort s) 0 + hd 0 (nsort s).
Proof.
  intros Hn W. destruct (nsort s) as [|x l] eqn:E; [exfalso; apply Hn, length_zero_iff_nil; now rewrite <- sort_length, E|].
  assert (I1 : In (last (x :: l) 0) s) by (apply sort_in; rewrite E; apply last_in; discriminate).
  assert (I2 : In x s) by (apply sort_in; rewrite E; left; reflexivity).
  specialize (W _ _ I1 I2). fold TP in W. cbn [hd]. lra.
Qed.
Lemma rspacings_nonneg s : s <> [] -> within_turn s -> forall x, In x (rspacings s) -> 0 <= x.
Proof.
  intros Hn W x Hx. unfold rspacings in Hx. apply in_app_or in Hx. destruct Hx as [Hx|[<-|[]]].
  - apply (diff_sorted_nonneg _ (sort_sorted s) x Hx).
  - left. apply wrap_gap_pos; assumption.
Qed.
Lemma diff_zero_coincident l : (forall x, In x (diff l) -> x = 0) -> coincident l.
Proof.
  intros H. assert (K : forall x l', l = x :: l' -> forall y, In y l -> y = x).
  { intros x l' ->. revert x H. induction l' as [|z l' IH]; intros x H y Hy; [destruct Hy as [->|[]]; reflexivity|].
    cbn [diff] in H. assert (z = x) by (specialize (H (z - x) (or_introl eq_refl)); lra). subst z.
    destruct Hy as [->|Hy]; [reflexivity|]. apply (IH x); [|exact Hy]. intros v Hv. apply H. right. exact Hv. }
  destruct l as [|x l']; [intros a b []|]. intros a b Ha Hb. rewrite (K x l' eq_refl a Ha), (K x l' eq_refl b Hb). reflexivity.
Qed.
Lemma coincident_diff l : coincident l -> forall x, In x (diff l) -> x = 0.
Proof.
  induction l as [|a l IH]; [intros _ x []|]. destruct l as [|b l]; [intros _ x []|]. intros K x. cbn [diff].
  intros [<-|Hx]; [rewrite (K a b); [ring|left; reflexivity|right; left; reflexivity]|].
  apply IH; [|exact Hx]. intros u v Hu Hv. apply K; right; assumption.
Qed.
Lemma rao_bounds s : s <> [] -> within_turn s ->
  let n := INR (length s) in
  0 <= rao_U s <= 2 * PI * (1 - / n) /\ (rao_U s = 0 <-> equally_spaced s) /\
  (rao_U s = 2 * PI * (1 - / n) <-> coincident s).
Proof.
  intros Hn W n. pose proof TP_pos as Hp.
  assert (Hl : 0 < n) by (apply lt_0_INR; destruct s; [congruence|simpl; lia]).
  assert (Gn : rspacings s <> []) by (intros E; pose proof (rspacings_len s Hn) as L; rewrite E in L; destruct s; [congruence|discriminate]).
  destruct (spacing_bound (rspacings s) (TP / n) Gn) as (B & Z & M).
  { apply Rdiv_lt_0_compat; assumption. }
  { apply rspacings_nonneg; assumption. }
  { rewrite rspacings_sum, rspacings_len by exact Hn. fold n. field. lra. }
  rewrite rspacings_len in * by exact Hn. fold n in B, M. 
  assert (EU : / 2 * Rsum (map (fun x => Rabs (x - TP / n)) (rspacings s)) = rao_U s) by reflexivity. rewrite EU in *.
  replace ((n - 1) * (TP / n)) with (2 * PI * (1 - / n)) in * by (unfold TP; field; lra).
  split; [exact B|]. split.
  - rewrite equally_spaced_iff by assumption. rewrite Z. split.
    + intros K. assert (K0 : forall x, In x (diff (dev s)) -> x = 0).
      { unfold dev. fold n. destruct (nsort s) as [|x l] eqn:E; [intros y []|]. rewrite diff_devs. intros y Hy.
        apply in_map_iff in Hy. destruct Hy as (z & <- & Hz). rewrite (K z); [ring|].
        unfold rspacings. rewrite E. apply in_or_app. left. exact Hz. }
      exact (diff_zero_coincident _ K0).
    + intros K.
      assert (U0 : rao_U s = 0).
      { rewrite rao_U_dev by exact Hn. unfold absum. rewrite (Rsum_map_ext _ (fun _ => 0)); [rewrite Rsum_map_const; ring|].
        intros x Hx. assert (K' : coincident (last (dev s) 0 :: dev s)).
        { intros u v Hu Hv. apply K; [destruct Hu as [<-|Hu]|destruct Hv as [<-|Hv]]; auto; apply last_in, dev_nonempty, Hn. }
        rewrite (coincident_diff _ K' x Hx). apply Rabs_R0. }
      apply Z, U0.
  - rewrite M. split.
    + intros (a & x & b & E & K). unfold rspacings in E.
      destruct (exists_last (l := x :: b)) as (b' & y & Eb); [discriminate|].
      rewrite Eb, app_assoc in E. apply app_inj_tail in E. destruct E as [E1 E2].
      assert (Hb : b = []).
      { destruct b as [|z b0]; [reflexivity|]. exfalso. destruct b' as [|x' b'']; [destruct b0; discriminate|].
        injection Eb as Ex Eb. assert (Hy : In y (z :: b0)) by (rewrite Eb; apply in_or_app; right; left; reflexivity).
        pose proof (K y (in_or_app _ _ _ (or_intror Hy))) as Y0. pose proof (wrap_gap_pos s Hn W). lra. }
      subst b. destruct b' as [|x' b'']; [|destruct b''; discriminate]. rewrite app_nil_r in E1, K.
      assert (Cs : coincident (nsort s)) by (apply diff_zero_coincident; rewrite E1; exact K).
      intros u v Hu Hv. apply Cs; apply sort_in; assumption.
    + intros Cs. exists (diff (nsort s)), (TP - last (nsort s) 0 + hd 0 (nsort s)), []. split; [reflexivity|].
      rewrite app_nil_r. apply coincident_diff. intros u v Hu Hv. apply Cs; apply sort_in; assumption.
Qed.
