(** The numeric cdf of a batch; the median. *)
From Verif Require Import Prelude NpModel NpProofs IntSpec IntProofs DistSpec DistModel DistProofs Dist2Proofs Dist7Proofs CcModel CcSpec.
From Coq Require Import Sorting.Permutation Sorting.Sorted.

(** [quad] integrates the non-negative [f], bounded by [M], with mass one between the bounds. *)
Definition good_quad (f : R -> R) (quad : R -> R -> R) (M lower upper : R) : Prop :=
  lower < upper /\ (forall x, lower <= x <= upper -> 0 <= f x <= M) /\
  (forall a b, lower <= a <= b -> b <= upper -> integral f a b (quad a b)) /\ quad lower upper = 1.
(** The distribution function: 0 up to the lower bound, 1 from the upper bound on. *)
Definition cdf_value (quad : R -> R -> R) (lower upper x : R) : R :=
  if Rleb x lower then 0 else if Rleb upper x then 1 else quad lower x.

Lemma gq_range f quad M lo up a b : good_quad f quad M lo up -> lo <= a <= b -> b <= up -> 0 <= quad a b <= M * (b - a).
Proof.
  intros (H & B & I & _) Ha Hb. split.
  - apply (integral_le (fun _ => 0) f a b 0 (quad a b)); [lra|intros x Hx; apply B; lra| |apply I; lra].
    apply (integral_val _ _ _ (0 * (b - a))); [ring|apply integral_const].
  - apply (integral_le f (fun _ => M) a b); [lra|intros x Hx; apply B; lra|apply I; lra|apply integral_const].
Qed.
Lemma gq_add f quad M lo up a b c : good_quad f quad M lo up -> lo <= a <= b -> b <= c <= up -> quad a b + quad b c = quad a c.
Proof.
  intros (H & B & I & _) Ha Hb. apply (integral_unique f a c); [|apply I; lra]. apply integral_split with b; apply I; lra.
Qed.
Lemma cdf_value_range f quad M lo up x : good_quad f quad M lo up -> 0 <= cdf_value quad lo up x <= 1.
Proof.
  intros G. pose proof G as (H & B & I & T). unfold cdf_value. destruct (Rleb_spec x lo); [lra|]. destruct (Rleb_spec up x); [lra|].
  pose proof (gq_range _ _ _ _ _ lo x G ltac:(lra) ltac:(lra)). pose proof (gq_range _ _ _ _ _ x up G ltac:(lra) ltac:(lra)).
  pose proof (gq_add _ _ _ _ _ lo x up G ltac:(lra) ltac:(lra)). lra.
Qed.
Definition near_out (quad : R -> R -> R) (M lo up : R) (p o : nat * R) : Prop :=
  fst o = fst p /\ Rabs (snd o - cdf_value quad lo up (snd p)) <= M * / 10 ^ 15.
Definition by_value (p q : nat * R) : Prop := snd p <= snd q.

Lemma pass_near f quad M lo up l : good_quad f quad M lo up -> StronglySorted by_value l ->
  forall cum cur, lo <= cur <= up -> cum = quad lo cur -> (forall p, In p l -> cur <= Rmax lo (snd p)) ->
  Forall2 (near_out quad M lo up) l (cdf_pass quad lo up cum cur l).
Proof.
  intros G. pose proof G as (H & B & I & T). induction l as [|[i v] l IH]; intros S cum cur Hc Ec Hl; [constructor|].
  inversion S as [|? ? S' F]; subst. cbn [cdf_pass].
  assert (M0 : 0 <= M) by (pose proof (B lo ltac:(lra)); lra). assert (P : 0 < / 10 ^ 15) by (apply Rinv_0_lt_compat; lra). assert (MP : 0 <= M * / 10 ^ 15) by nra.
  pose proof (Hl (i, v) (or_introl eq_refl)) as Hv. cbn in Hv.
  destruct (Rleb_spec v lo) as [L|L].
  - constructor.
    + split; [reflexivity|]. cbn. unfold cdf_value. rewrite (proj2 (Rleb_true v lo) L). rewrite Rminus_diag_eq by reflexivity. rewrite Rabs_R0. exact MP.
    + apply IH; auto. intros p Hp. apply Hl. right. exact Hp.
  - rewrite Rmax_right in Hv by lra. cbv zeta.
    assert (X : forall cl, cl = Rmin v up -> exists cum' cur', (if Rltb (cur + / 10 ^ 15) cl then (quad lo cur + quad cur cl, cl) else (quad lo cur, cur)) = (cum', cur') /\
      lo <= cur' <= cl /\ cl - / 10 ^ 15 <= cur' /\ cum' = quad lo cur').
    { intros cl Ecl. assert (cur <= cl <= up) by (subst cl; split; [apply Rmin_glb; lra|apply Rmin_r]).
      destruct (Rltb_spec (cur + / 10 ^ 15) cl).
      - exists (quad lo cur + quad cur cl), cl. split; [reflexivity|]. split; [lra|]. split; [lra|]. apply (gq_add f quad M lo up); auto; lra.
      - exists (quad lo cur), cur. split; [reflexivity|]. split; [lra|]. split; [lra|reflexivity]. }
    destruct (X _ eq_refl) as (cum' & cur' & -> & Hcl & Hcl2 & Ecum).
    assert (Hmin : Rmin v up <= v /\ Rmin v up <= up) by (split; [apply Rmin_l|apply Rmin_r]).
    rewrite Forall_forall in F.
    destruct (Rleb_spec up v) as [U|U].
    + constructor.
      * split; [reflexivity|]. cbn. unfold cdf_value. rewrite (proj2 (Rleb_false v lo)) by lra. rewrite (proj2 (Rleb_true up v) U). rewrite Rminus_diag_eq by reflexivity. rewrite Rabs_R0. exact MP.
      * apply IH; auto; [lra|]. intros p Hp. specialize (F p Hp). unfold by_value in F. cbn in F. apply Rle_trans with (snd p); [lra|apply Rmax_r].
    + assert (Em : Rmin v up = v) by (apply Rmin_left; lra). rewrite Em in *. constructor.
      * split; [reflexivity|]. cbn. unfold cdf_value. rewrite (proj2 (Rleb_false v lo)) by lra. rewrite (proj2 (Rleb_false up v)) by lra.
        rewrite Ecum. pose proof (gq_add f quad M lo up lo cur' v G ltac:(lra) ltac:(lra)) as A. pose proof (gq_range f quad M lo up cur' v G ltac:(lra) ltac:(lra)) as Q.
        rewrite <- A, Rabs_minus_sym, Rabs_right by lra. assert (M * (v - cur') <= M * / 10 ^ 15) by (apply Rmult_le_compat_l; lra). lra.
      * apply IH; auto; [lra|]. intros p Hp. specialize (F p Hp). unfold by_value in F. cbn in F. apply Rle_trans with (snd p); [lra|apply Rmax_r].
Qed.

(** ** Sorting with indices *)
Lemma insert_idx_perm p l : Permutation (p :: l) (insert_idx p l).
Proof.
  induction l as [|q l IH]; cbn; [auto|]. destruct (Rleb (snd p) (snd q)); [auto|].
  apply perm_trans with (q :: p :: l); [apply perm_swap|apply perm_skip, IH].
Qed.
Lemma insert_idx_sorted p l : StronglySorted by_value l -> StronglySorted by_value (insert_idx p l).
Proof.
  induction l as [|q l IH]; intros S; cbn; [constructor; constructor|]. inversion S as [|? ? S' F]; subst.
  destruct (Rleb_spec (snd p) (snd q)) as [L|L].
  - constructor; [exact S|]. constructor; [exact L|]. apply Forall_forall. intros x Hx. rewrite Forall_forall in F. specialize (F x Hx). unfold by_value in *. lra.
  - constructor; [apply IH, S'|]. apply Forall_forall. intros x Hx. apply (Permutation_in x (Permutation_sym (insert_idx_perm p l))) in Hx.
    destruct Hx as [<-|Hx]; [unfold by_value; lra|]. rewrite Forall_forall in F. apply F, Hx.
Qed.
Lemma argsort_fold l : Permutation l (fold_right insert_idx [] l) /\ StronglySorted by_value (fold_right insert_idx [] l).
Proof.
  induction l as [|p l [IP IS]]; cbn; [split; constructor|]. split; [|apply insert_idx_sorted, IS].
  apply perm_trans with (p :: fold_right insert_idx [] l); [apply perm_skip, IP|apply insert_idx_perm].
Qed.
Lemma combine_seq_in (xs : list R) k i x : In (i, x) (combine (seq k (length xs)) xs) <-> (k <= i)%nat /\ nth_error xs (i - k) = Some x.
Proof.
  revert k. induction xs as [|y xs IH]; intros k; cbn [length seq combine].
  - split; [intros []|]. intros [_ H]. destruct (i - k)%nat; discriminate.
  - cbn [In]. rewrite IH. split.
    + intros [[= -> ->]|[L H]]; [rewrite Nat.sub_diag; auto|]. split; [lia|]. replace (i - k)%nat with (S (i - S k)) by lia. exact H.
    + intros [L H]. destruct (Nat.eq_dec i k) as [->|N]; [rewrite Nat.sub_diag in H; injection H as ->; auto|].
      right. split; [lia|]. replace (i - k)%nat with (S (i - S k)) in H by lia. exact H.
Qed.
Lemma find_idx l i o : find (fun p : nat * R => Nat.eqb (fst p) i) l = Some o -> In o l /\ fst o = i.
Proof. intros H. apply find_some in H. destruct H as [H E]. apply Nat.eqb_eq in E. auto. Qed.
Lemma Forall2_in_r {A B} (P : A -> B -> Prop) l l' y : Forall2 P l l' -> In y l' -> exists x, In x l /\ P x y.
Proof. induction 1 as [|a b l l' H F IH]; [intros []|]. intros [<-|H']; [exists a; cbn; auto|]. destruct (IH H') as (x & Hx & Px). exists x; cbn; auto. Qed.
Lemma Forall2_in_l {A B} (P : A -> B -> Prop) l l' x : Forall2 P l l' -> In x l -> exists y, In y l' /\ P x y.
Proof. induction 1 as [|a b l l' H F IH]; [intros []|]. intros [<-|H']; [exists b; cbn; auto|]. destruct (IH H') as (y & Hy & Py). exists y; cbn; auto. Qed.
Lemma clip_close a b e : 0 <= b <= 1 -> Rabs (a - b) <= e -> Rabs (clip a 0 1 - b) <= e.
Proof.
  intros Hb H. unfold clip. apply Rabs_le. assert (- e <= a - b <= e) by (revert H; unfold Rabs; destruct (Rcase_abs _); lra).
  unfold Rmin, Rmax; repeat destruct (Rle_dec _ _); lra.
Qed.
Lemma clip_01 a : 0 <= clip a 0 1 <= 1.
Proof. apply clip_range. lra. Qed.

Lemma batch_near f quad M lo up xs : good_quad f quad M lo up -> length (cdf_integral quad lo up xs) = length xs /\
  forall i x, nth_error xs i = Some x -> exists v, nth_error (cdf_integral quad lo up xs) i = Some v /\ 0 <= v <= 1 /\
    Rabs (v - cdf_value quad lo up x) <= M * / 10 ^ 15.
Proof.
  intros G. pose proof G as (H & B & I & T). unfold cdf_integral. cbv zeta. split; [rewrite map_length, seq_length; reflexivity|].
  intros i x Hx. assert (Li : (i < length xs)%nat) by (apply nth_error_Some; congruence).
  destruct (argsort_fold (combine (seq 0 (length xs)) xs)) as [Pm St]. fold (argsort xs) in Pm, St.
  assert (Q0 : 0 = quad lo lo).
  { pose proof (gq_range f quad M lo up lo lo G ltac:(lra) ltac:(lra)) as Q. rewrite Rminus_diag_eq in Q by reflexivity. lra. }
  pose proof (pass_near f quad M lo up (argsort xs) G St 0 lo ltac:(lra) Q0 ltac:(intros p _; apply Rmax_l)) as F.
  assert (Hin : In (i, x) (argsort xs)) by (apply (Permutation_in _ Pm), combine_seq_in; split; [lia|rewrite Nat.sub_0_r; exact Hx]).
  rewrite (map_nth_error _ i (seq 0 (length xs)) (d := i)) by (rewrite nth_error_nth' with (d := 0%nat) by (rewrite seq_length; exact Li); rewrite seq_nth by exact Li; reflexivity).
  eexists. split; [reflexivity|].
  destruct (find (fun p => Nat.eqb (fst p) i) (cdf_pass quad lo up 0 lo (argsort xs))) as [o|] eqn:Ef.
  - split; [apply clip_01|]. apply find_idx in Ef. destruct Ef as [Ho Eo]. destruct (Forall2_in_r _ _ _ _ F Ho) as ([j y] & Hy & Ej & Nj). cbn in Ej, Nj.
    assert (j = i) by congruence. subst j. apply (Permutation_in _ (Permutation_sym Pm)), combine_seq_in in Hy. rewrite Nat.sub_0_r in Hy. destruct Hy as [_ Hy].
    assert (y = x) by congruence. subst y. apply clip_close; [apply (cdf_value_range f quad M); exact G|exact Nj].
  - exfalso. destruct (Forall2_in_l _ _ _ _ F Hin) as (o & Ho & Eo & _). apply (find_none _ _ Ef) in Ho. cbn in Eo. rewrite Eo, Nat.eqb_refl in Ho. discriminate.
Qed.
