(** The level of the median's interval. *)
From Verif Require Import Prelude NpModel NpProofs UtilsModel UtilsProofs CircleSpec Desc2Model Desc7Proofs Corr2Proofs Modes2Proofs LevModel LevSpec.
From Coq Require Import Sorted Permutation Lra Lia.

Fixpoint signs (n : nat) : list (list bool) :=
  match n with O => [[]] | S n => map (cons true) (signs n) ++ map (cons false) (signs n) end.
Lemma in_signs n : forall s, In s (signs n) <-> length s = n.
Proof.
  induction n as [|n IH]; intros s.
  - cbn. split; [intros [<-|[]]; reflexivity|]. destruct s; [auto|discriminate].
  - cbn [signs]. rewrite in_app_iff, !in_map_iff. split.
    + intros [(t & <- & H)|(t & <- & H)]; apply IH in H; cbn; lia.
    + destruct s as [|b s]; [discriminate|]. cbn. intros H. assert (length s = n) as H' by lia. apply IH in H'.
      destruct b; [left|right]; exists s; auto.
Qed.
Lemma nodup_app {A} (l l' : list A) : NoDup l -> NoDup l' -> (forall x, In x l -> In x l' -> False) -> NoDup (l ++ l').
Proof.
  induction 1 as [|x l Hx Hl IH]; intros Hl' D; cbn; [exact Hl'|]. constructor.
  - rewrite in_app_iff. intros [H|H]; [auto|]. exact (D x (or_introl eq_refl) H).
  - apply IH; [exact Hl'|]. intros y H H'. exact (D y (or_intror H) H').
Qed.
Lemma nodup_signs n : NoDup (signs n).
Proof.
  induction n as [|n IH]; cbn [signs]; [constructor; [intros []|constructor]|].
  apply nodup_app; try (apply FinFun.Injective_map_NoDup; [intros x y E; congruence|exact IH]).
  intros x H H'. apply in_map_iff in H as (a & <- & _). apply in_map_iff in H' as (b & E & _). discriminate.
Qed.

(** Entries below [m]. *)
Definition below (m : R) (l : list R) : nat := length (filter (fun a => Rltb a m) l).
Fixpoint lows (s : list bool) : nat := match s with [] => 0 | b :: t => (if b then 0 else 1) + lows t end.
Lemma below_perm m l l' : Permutation l l' -> below m l = below m l'.
Proof.
  unfold below. induction 1; cbn; auto.
  - destruct (Rltb x m); cbn; congruence.
  - destruct (Rltb x m), (Rltb y m); reflexivity.
  - congruence.
Qed.
Lemma below_sides m s l : Forall2 (side m) s l -> below m l = lows s.
Proof.
  unfold below. induction 1 as [|b a s l H _ IH]; cbn; [reflexivity|]. destruct b; cbn in H.
  - rewrite (proj2 (Rltb_false a m)) by lra. exact IH.
  - rewrite (proj2 (Rltb_true a m)) by lra. cbn. rewrite IH. reflexivity.
Qed.
Lemma below_cons m a l : below m (a :: l) = ((if Rltb a m then 1 else 0) + below m l)%nat.
Proof. unfold below. cbn. destruct (Rltb a m); reflexivity. Qed.
Lemma below_nth m l : StronglySorted Rle l -> forall i x, nth_error l i = Some x -> (x < m <-> (i < below m l)%nat).
Proof.
  induction 1 as [|a l Hs IH Ha]; intros i x E; [destruct i; discriminate|].
  rewrite below_cons. destruct i as [|i]; cbn in E.
  - injection E as <-. destruct (Rltb a m) eqn:C.
    + apply Rltb_true in C. split; [lia|auto].
    + apply Rltb_false in C. split; [intros; lra|]. intros H. exfalso.
      destruct l as [|b l]; [cbn in H; lia|]. pose proof (proj2 (IH O b eq_refl)) as Q. inversion Ha; subst.
      assert (b < m) by (apply Q; lia). lra.
  - assert (a <= x) by (rewrite Forall_forall in Ha; apply Ha; eapply nth_error_In; eauto).
    destruct (Rltb a m) eqn:C.
    + rewrite (IH i x E). lia.
    + apply Rltb_false in C. split; [intros; lra|]. intros H'. apply (IH i x E). lia.
Qed.
Lemma sorted_le l : StronglySorted Rle l -> forall i j x y, (i <= j)%nat -> nth_error l i = Some x -> nth_error l j = Some y -> x <= y.
Proof.
  induction 1 as [|a l Hs IH Ha]; intros i j x y L E F; [destruct i; discriminate|].
  destruct i as [|i], j as [|j]; cbn in E, F; try lia.
  - replace x with y by congruence. lra.
  - injection E as <-. rewrite Forall_forall in Ha. apply Ha. eapply nth_error_In; eauto.
  - apply (IH i j); auto. lia.
Qed.
Lemma ccw_line m lo up : 0 <= m < 2 * PI -> 0 <= lo -> lo <= up -> up < 2 * PI -> (on_ccw_arc m lo up <-> lo <= m <= up).
Proof.
  intros Hm Hl Hlu Hu. split.
  - intros (t & u & Ht & Hu' & [k Ek] & [j Ej]).
    assert (j = 0%Z).
    { assert (A : -1 < IZR j) by (apply (Rmult_lt_reg_l (2 * PI)); lra). assert (B : IZR j < 1) by (apply (Rmult_lt_reg_l (2 * PI)); lra).
      apply (lt_IZR (-1)) in A. apply (lt_IZR _ 1) in B. lia. }
    subst j. assert (k = 0%Z).
    { assert (A : -1 < IZR k) by (apply (Rmult_lt_reg_l (2 * PI)); lra). assert (B : IZR k < 1) by (apply (Rmult_lt_reg_l (2 * PI)); lra).
      apply (lt_IZR (-1)) in A. apply (lt_IZR _ 1) in B. lia. }
    subst k. lra.
  - intros H. exists (m - lo), (up - lo). repeat split; try lra; exists 0%Z; lra.
Qed.

(** The interval of the table covers m exactly when the number of observations below m is right. *)
Lemma side_at m s l : Forall2 (side m) s l -> forall k a, nth_error l k = Some a -> exists b, side m b a.
Proof.
  induction 1 as [|b c s l H _ IH]; intros k a E; [destruct k; discriminate|].
  destruct k as [|k]; cbn in E; [exists b; congruence|exact (IH k a E)].
Qed.
Lemma table_interval n i j m s alpha median z : median_ci_table n = Some (i, j) -> (n <= 15)%nat -> (i <= j < n)%nat -> length s = n -> 0 <= m < 2 * PI -> Forall2 (side m) s alpha ->
  exists lo up, circ_median_ci alpha median z = Ok (Some (lo, up)) /\ (on_ccw_arc m lo up <-> (i < lows s <= j)%nat).
Proof.
  intros T Hn Hij Hs Hm HF. assert (La : length alpha = n) by (rewrite <- Hs; symmetry; eapply F2_length; eauto).
  pose proof PI2_pos as Hp.
  assert (Hr : forall a, In a alpha -> 0 <= a < 2 * PI /\ a <> m).
  { intros a Ha. destruct (In_nth_error _ _ Ha) as (k & E). destruct (side_at m s alpha HF k a E) as ([|] & Hb); cbn in Hb; lra. }
  assert (Ls : length (nsort alpha) = n) by (rewrite sort_length; exact La).
  destruct (nth_error_ex (nsort alpha) i) as (x & Ex); [lia|]. destruct (nth_error_ex (nsort alpha) j) as (y & Ey); [lia|].
  assert (Rx : 0 <= x < 2 * PI /\ x <> m) by (apply Hr, sort_in; eapply nth_error_In; eauto).
  assert (Ry : 0 <= y < 2 * PI /\ y <> m) by (apply Hr, sort_in; eapply nth_error_In; eauto).
  exists x, y. split.
  - unfold circ_median_ci. rewrite La, T. replace (Nat.ltb 15 n) with false by (symmetry; apply Nat.ltb_ge; lia).
    unfold nth_err. rewrite Ex, Ey. cbn. rewrite !angmod0_id by lra. reflexivity.
  - assert (x <= y) by (eapply sorted_le; [apply sort_sorted| |exact Ex|exact Ey]; lia).
    rewrite ccw_line by lra.
    pose proof (below_nth m _ (sort_sorted alpha) i x Ex) as Bx. pose proof (below_nth m _ (sort_sorted alpha) j y Ey) as By.
    assert (EB : below m (nsort alpha) = lows s) by (rewrite <- (below_perm m alpha _ (sort_perm alpha)); apply below_sides; exact HF).
    rewrite EB in Bx, By. split.
    + intros [A B]. split; [apply Bx; lra|]. destruct (le_lt_dec (lows s) j) as [|G]; [assumption|]. apply By in G. lra.
    + intros [A B]. apply Bx in A. split; [lra|]. destruct (Rle_dec m y); [assumption|]. assert (G : y < m) by lra. apply By in G. lia.
Qed.
Definition hits (n i j : nat) : list (list bool) := filter (fun s => Nat.ltb i (lows s) && Nat.leb (lows s) j) (signs n).
Lemma covers_count n i j m X median z ci : median_ci_table n = Some (i, j) -> (n <= 15)%nat -> (i <= j < n)%nat -> 0 <= m < 2 * PI -> drawn_about m n X ->
  coverage n m (fun s lo up => exists lv, median_ci_full (X s) (median s) z ci = Ok (Some (lo, up), lv)) (INR (length (hits n i j)) / 2 ^ n) /\
  forall s, length s = n -> exists lo up, median_ci_full (X s) (median s) z ci = Ok (Some (lo, up), median_ci_level n ci).
Proof.
  intros T Hn Hij Hm HX.
  assert (K : forall s, length s = n -> exists lo up, median_ci_full (X s) (median s) z ci = Ok (Some (lo, up), median_ci_level n ci) /\ (on_ccw_arc m lo up <-> (i < lows s <= j)%nat)).
  { intros s Hs. pose proof (HX s Hs) as HF. destruct (table_interval n i j m s (X s) (median s) z T Hn Hij Hs Hm HF) as (lo & up & E & C).
    exists lo, up. split; [|exact C]. unfold median_ci_full. rewrite E. cbn.
    replace (length (X s)) with n; [reflexivity|]. rewrite <- Hs. eapply F2_length; eauto. }
  split.
  - exists (hits n i j). split; [apply NoDup_filter, nodup_signs|]. split; [|reflexivity]. intros s. unfold hits. rewrite filter_In, in_signs. split.
    + intros [Hs B]. split; [exact Hs|]. destruct (K s Hs) as (lo & up & E & C). exists lo, up. split; [eauto|]. apply C.
      apply andb_true_iff in B as [B1 B2]. apply Nat.ltb_lt in B1. apply Nat.leb_le in B2. lia.
    + intros [Hs (lo & up & (lv & E) & A)]. split; [exact Hs|]. destruct (K s Hs) as (lo' & up' & E' & C). rewrite E in E'.
      assert (lo = lo' /\ up = up') as [-> ->] by (split; congruence). apply C in A.
      apply andb_true_iff. rewrite Nat.ltb_lt, Nat.leb_le. exact A.
  - intros s Hs. destruct (K s Hs) as (lo & up & E & _). eauto.
Qed.
Definition hitsZ (n : nat) : Z := match median_ci_table n with Some (i, j) => Z.of_nat (length (hits n i j)) | None => 0%Z end.
Lemma hits_list : map hitsZ (seq 3 13) = [6; 14; 30; 62; 126; 254; 510; 1002; 2024; 3938; 8008; 15444; 32526]%Z.
Proof. vm_compute. reflexivity. Qed.
Lemma hits_at k : (k < 13)%nat -> hitsZ (3 + k) = nth k [6; 14; 30; 62; 126; 254; 510; 1002; 2024; 3938; 8008; 15444; 32526]%Z 0%Z.
Proof.
  intros H. rewrite <- hits_list. rewrite (nth_indep _ 0%Z (hitsZ 0)) by (rewrite map_length, seq_length; exact H).
  rewrite map_nth, seq_nth by exact H. reflexivity.
Qed.
Lemma table_some n : (3 <= n <= 15)%nat -> exists i j, median_ci_table n = Some (i, j) /\ (i <= j < n)%nat.
Proof.
  intros H. do 16 (destruct n as [|n]; [try lia; try (do 2 eexists; split; [reflexivity|lia])|]). lia.
Qed.
Lemma level_close n ci i j : (3 <= n <= 14)%nat -> median_ci_table n = Some (i, j) ->
  Rabs (INR (length (hits n i j)) / 2 ^ n - median_ci_level n ci) <= (if Nat.eqb n 14 then 6/1000 else 2/1000).
Proof.
  intros H T. assert (E : INR (length (hits n i j)) = IZR (hitsZ n)) by (unfold hitsZ; rewrite T; apply INR_IZR_INZ).
  rewrite E. assert (exists k, (k < 12)%nat /\ n = (3 + k)%nat) as (k & Hk & ->) by (exists (n - 3)%nat; lia).
  rewrite hits_at by lia. clear E T H. apply Rabs_le.
  do 12 (destruct k as [|k]; [cbn [nth plus median_ci_level Nat.eqb]; split; simpl; lra|]). lia.
Qed.
Lemma level_covers n m X median z ci : (3 <= n <= 14)%nat -> 0 <= m < 2 * PI -> drawn_about m n X -> exists q lv,
  coverage n m (fun s lo up => exists lv, median_ci_full (X s) (median s) z ci = Ok (Some (lo, up), lv)) q /\
  (forall s, length s = n -> exists lo up, median_ci_full (X s) (median s) z ci = Ok (Some (lo, up), lv)) /\ Rabs (q - lv) <= (if Nat.eqb n 14 then 6/1000 else 2/1000).
Proof.
  intros Hn Hm HX. destruct (table_some n ltac:(lia)) as (i & j & T & Hij).
  destruct (covers_count n i j m X median z ci T ltac:(lia) Hij Hm HX) as [A B].
  exists (INR (length (hits n i j)) / 2 ^ n), (median_ci_level n ci). split; [exact A|]. split; [exact B|]. apply level_close; auto.
Qed.
Lemma level_fifteen m X median z ci : 0 <= m < 2 * PI -> drawn_about m 15 X -> exists q,
  coverage 15 m (fun s lo up => exists lv, median_ci_full (X s) (median s) z ci = Ok (Some (lo, up), lv)) q /\
  (forall s, length s = 15%nat -> exists lo up, median_ci_full (X s) (median s) z ci = Ok (Some (lo, up), 965/1000)) /\ 992/1000 < q.
Proof.
  intros Hm HX. destruct (covers_count 15 2 12 m X median z ci eq_refl ltac:(lia) ltac:(lia) Hm HX) as [A B].
  exists (INR (length (hits 15 2 12)) / 2 ^ 15). split; [exact A|]. split; [exact B|].
  assert (E : INR (length (hits 15 2 12)) = IZR (hitsZ 15)) by apply INR_IZR_INZ.
  rewrite E. change 15%nat with (3 + 12)%nat at 1. rewrite hits_at by lia. cbn [nth]. simpl. lra.
Qed.
(** Without an observation at 0 the interval never contains the direction 0. *)
Lemma never_zero alpha median z ci : (3 <= length alpha <= 15)%nat -> Forall (fun a => 0 < a < 2 * PI) alpha ->
  exists lo up lv, median_ci_full alpha median z ci = Ok (Some (lo, up), lv) /\ ~ on_ccw_arc 0 lo up.
Proof.
  intros Hn HF. destruct (table_some _ Hn) as (i & j & T & Hij). pose proof PI2_pos as Hp.
  assert (Ls : length (nsort alpha) = length alpha) by apply sort_length. rewrite Forall_forall in HF.
  destruct (nth_error_ex (nsort alpha) i) as (x & Ex); [lia|]. destruct (nth_error_ex (nsort alpha) j) as (y & Ey); [lia|].
  assert (Rx : 0 < x < 2 * PI) by (apply HF, sort_in; eapply nth_error_In; eauto).
  assert (Ry : 0 < y < 2 * PI) by (apply HF, sort_in; eapply nth_error_In; eauto).
  assert (x <= y) by (eapply sorted_le; [apply sort_sorted| |exact Ex|exact Ey]; lia).
  exists x, y, (median_ci_level (length alpha) ci). split.
  - unfold median_ci_full, circ_median_ci. rewrite T. replace (Nat.ltb 15 (length alpha)) with false by (symmetry; apply Nat.ltb_ge; lia).
    unfold nth_err. rewrite Ex, Ey. cbn. rewrite !angmod0_id by lra. reflexivity.
  - rewrite ccw_line by lra. lra.
Qed.
(** A family of samples about 1. *)
Definition two_sided (s : list bool) : list R := map (fun b : bool => if b then 1 + / 2 else 1 - / 2) s.
Lemma two_sided_drawn n : drawn_about 1 n two_sided.
Proof.
  intros s _. unfold two_sided. assert (3 < PI) by (pose proof PI2_3_2; lra). induction s as [|b s IH]; cbn; constructor; auto. destruct b; cbn; lra.
Qed.
