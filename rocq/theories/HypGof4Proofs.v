(** The p-value of the circular range test: truncated powers and cardinal B-splines. *)
From Verif Require Import Prelude NpModel NpProofs CircleSpec UtilsModel UtilsProofs
  DescModel DescProofs DescSpec DescApi Desc2Model Desc2Spec ArcProofs Desc3Proofs Desc6Proofs
  HypModel HypSpec HypProofs HypGofModel HypGofSpec HypGofProofs HypGof2Proofs.
From Coq Require Import Sorted.

(** ** Binomial coefficients extended by 0 *)
Lemma comb_0 n : comb n 0 = 1.
Proof. unfold comb, C. cbn [Nat.leb]. rewrite Nat.sub_0_r. simpl (fact 0). simpl (INR 1). field. apply INR_fact_neq_0. Qed.
Lemma comb_nn n : comb n n = 1.
Proof. unfold comb, C. rewrite Nat.leb_refl, Nat.sub_diag. simpl (fact 0). simpl (INR 1). field. apply INR_fact_neq_0. Qed.
Lemma comb_out n i : (n < i)%nat -> comb n i = 0.
Proof. intros H. unfold comb. replace (Nat.leb i n) with false; [reflexivity|]. symmetry. apply Nat.leb_gt, H. Qed.
Lemma comb_in n i : (i <= n)%nat -> comb n i = C n i.
Proof. intros H. unfold comb. replace (Nat.leb i n) with true; [reflexivity|]. symmetry. apply Nat.leb_le, H. Qed.
Lemma comb_pascal n i : comb (S n) (S i) = comb n i + comb n (S i).
Proof.
  destruct (Nat.lt_trichotomy i n) as [H|[->|H]].
  - rewrite !comb_in by lia. symmetry. apply pascal, H.
  - rewrite !comb_nn, comb_out by lia. ring.
  - rewrite !comb_out by lia. ring.
Qed.
Lemma comb_absorb n i : INR (S i) * comb (S n) (S i) = INR (S n) * comb n i.
Proof.
  destruct (Nat.le_gt_cases i n) as [H|H]; [|rewrite !comb_out by lia; ring].
  rewrite !comb_in by lia. unfold C. replace (S n - S i)%nat with (n - i)%nat by lia.
  rewrite !fact_simpl, !mult_INR. field. split; [apply INR_fact_neq_0|]. split; [apply INR_fact_neq_0|]. apply not_0_INR. lia.
Qed.

(** ** Truncated powers *)
Definition tp (x : R) (k : nat) : R := if Rle_dec 0 x then x ^ k else 0.
Lemma tp_S x k : tp x (S k) = x * tp x k.
Proof. unfold tp. destruct Rle_dec; [reflexivity|ring]. Qed.
Lemma tp_neg x k : x < 0 -> tp x k = 0.
Proof. intros H. unfold tp. destruct Rle_dec; [lra|reflexivity]. Qed.
Lemma tp_pos x k : 0 <= x -> tp x k = x ^ k.
Proof. intros H. unfold tp. destruct Rle_dec; [reflexivity|lra]. Qed.
Lemma tp_scale x y k : 0 < y -> tp (y * x) k = y ^ k * tp x k.
Proof.
  intros H. unfold tp. destruct (Rle_dec 0 x) as [Hx|Hx], (Rle_dec 0 (y * x)) as [Hy|Hy]; try nra; apply Rpow_mult_distr.
Qed.

(** Unnormalised B-spline. *)
Definition spl (n k : nat) (t : R) : R :=
  Rsum (map (fun i => (-1) ^ i * comb n i * tp (t - INR i) k) (seq 0 (S n))).
Lemma seq_cons m : seq 0 (S m) = 0%nat :: map S (seq 0 m).
Proof. cbn [seq]. now rewrite seq_shift. Qed.
Lemma spl_rec n k t : spl (S n) (S k) t = t * spl n k t + (INR (S n) - t) * spl n k (t - 1).
Proof.
  assert (E1 : spl n k t = Rsum (map (fun i => (-1) ^ i * comb n i * tp (t - INR i) k) (seq 0 (S (S n))))).
  { unfold spl. rewrite (seq_S (S n)), map_app, Rsum_app. cbn [map]. rewrite Rsum_cons, Rsum_nil.
    rewrite (comb_out n (0 + S n)) by lia. ring. }
  set (g := fun i => match i with 0%nat => 0 | S j => (-1) ^ j * comb n j * tp (t - INR (S j)) k end).
  assert (E2 : spl n k (t - 1) = Rsum (map g (seq 0 (S (S n))))).
  { rewrite seq_cons. cbn [map]. rewrite Rsum_cons, map_map. unfold spl. cbn [g]. rewrite Rplus_0_l.
    apply Rsum_map_ext. intros i _. unfold g. rewrite S_INR. do 2 f_equal. ring. }
  rewrite E1, E2, <- !Rsum_map_scal, <- Rsum_map_plus. unfold spl. apply Rsum_map_ext. intros i _.
  rewrite tp_S. destruct i as [|j].
  - cbn [g]. rewrite !comb_0. simpl INR. ring.
  - cbn [g]. pose proof (comb_absorb n j) as A. rewrite comb_pascal in *. cbn [pow].
    transitivity (-1 * (-1) ^ j * tp (t - INR (S j)) k * (t * (comb n j + comb n (S j)) - INR (S j) * (comb n j + comb n (S j)))); [ring|].
    rewrite A. ring.
Qed.
Lemma spl_1_0 t : (0 <= t < 1 -> spl 1 0 t = 1) /\ (t < 0 \/ 1 <= t -> spl 1 0 t = 0).
Proof.
  unfold spl. cbn [seq map]. rewrite ?Rsum_cons, ?Rsum_nil, comb_0, comb_nn. simpl INR. split.
  - intros H. rewrite tp_pos, tp_neg by lra. simpl. ring.
  - intros [H|H]; [rewrite !tp_neg by lra; ring|]. rewrite !tp_pos by lra. simpl. ring.
Qed.
Lemma spl_sign m : forall t, 0 <= spl (S m) m t /\ (t < 0 \/ INR (S m) <= t -> spl (S m) m t = 0) /\
  (0 < t < INR (S m) -> 0 < spl (S m) m t).
Proof.
  induction m as [|m IH]; intros t.
  - destruct (spl_1_0 t) as [A B]. replace (INR 1) with 1 by reflexivity. split; [|split; [exact B|]].
    + destruct (Rlt_le_dec t 0) as [H|H]; [rewrite B; [lra|left; exact H]|].
      destruct (Rlt_le_dec t 1) as [H1|H1]; [rewrite A; lra|rewrite B; [lra|right; exact H1]].
    + intros H. rewrite A; lra.
  - rewrite spl_rec. destruct (IH t) as (P1 & Z1 & S1). destruct (IH (t - 1)) as (P2 & Z2 & S2).
    rewrite (S_INR (S m)) in *. assert (Hm : 1 <= INR (S m)) by (rewrite S_INR; pose proof (pos_INR m); lra).
    assert (Z : t < 0 \/ INR (S m) + 1 <= t -> t * spl (S m) m t + (INR (S m) + 1 - t) * spl (S m) m (t - 1) = 0).
    { intros [H|H]; [rewrite Z1, Z2 by (left; lra)|rewrite Z1, Z2 by (right; lra)]; ring. }
    split; [|split; [exact Z|]].
    + destruct (Rlt_le_dec t 0) as [H|H]; [rewrite Z; [lra|left; exact H]|].
      destruct (Rlt_le_dec t (INR (S m) + 1)) as [H1|H1]; [|rewrite Z; [lra|right; exact H1]].
      apply Rplus_le_le_0_compat; apply Rmult_le_pos; lra.
    + intros [H H1]. destruct (Rlt_le_dec t (INR (S m))) as [H2|H2].
      * assert (0 < t * spl (S m) m t) by (apply Rmult_lt_0_compat; [lra|apply S1; lra]).
        assert (0 <= (INR (S m) + 1 - t) * spl (S m) m (t - 1)) by (apply Rmult_le_pos; lra). lra.
      * assert (0 <= t * spl (S m) m t) by (apply Rmult_le_pos; lra).
        assert (0 < (INR (S m) + 1 - t) * spl (S m) m (t - 1)); [|lra]. apply Rmult_lt_0_compat; [lra|].
        destruct m as [|m]; [|apply S2; rewrite S_INR in *; assert (1 <= INR (S m)) by (rewrite S_INR; pose proof (pos_INR m); lra); lra].
        replace (INR 1) with 1 in * by reflexivity. rewrite (proj1 (spl_1_0 (t - 1))); lra.
Qed.

(** ** 1 - p as a spline in the largest gap y (fraction of the circle) *)
Definition Sf (n k : nat) (y : R) : R :=
  Rsum (map (fun i => (-1) ^ i * comb n i * tp (1 - INR i * y) k) (seq 0 (S n))).
Lemma Sf_scale n k y c : 0 < y ->
  Rsum (map (fun i => (-1) ^ i * comb n i * tp (c - INR i * y) k) (seq 0 (S n))) = y ^ k * spl n k (c / y).
Proof.
  intros Hy. unfold spl. rewrite <- Rsum_map_scal. apply Rsum_map_ext. intros i _.
  replace (c - INR i * y) with (y * (c / y - INR i)) by (field; lra). rewrite tp_scale by exact Hy. ring.
Qed.
Lemma Sf_spl n k y : 0 < y -> Sf n k y = y ^ k * spl n k (1 / y).
Proof. apply Sf_scale. Qed.
Lemma tp_deriv x k : derivable_pt_lim (fun x => tp x (S (S k))) x (INR (S (S k)) * tp x (S k)).
Proof.
  intros eps He. destruct (Rtotal_order x 0) as [H|[->|H]].
  - assert (Hd : 0 < - x) by lra. exists (mkposreal _ Hd). intros h Hh Hl. simpl in Hl.
    assert (- (- x) < h < - x) by (apply Rabs_def2 in Hl; lra).
    rewrite !tp_neg by lra. unfold Rdiv. rewrite Rmult_0_r. replace (0 - 0) with 0 by ring. rewrite Rmult_0_l, Rminus_0_r, Rabs_R0. exact He.
  - assert (Hd : 0 < Rmin eps 1) by (apply Rmin_pos; lra). exists (mkposreal _ Hd). intros h Hh Hl. simpl in Hl.
    rewrite (tp_S 0 (S k)), (tp_S 0 k). rewrite Rplus_0_l. rewrite !Rmult_0_l, Rmult_0_r, !Rminus_0_r.
    assert (L1 : Rabs h < eps) by (eapply Rlt_le_trans; [exact Hl|apply Rmin_l]).
    assert (L2 : Rabs h < 1) by (eapply Rlt_le_trans; [exact Hl|apply Rmin_r]).
    rewrite tp_S. replace (h * tp h (S k) / h) with (tp h (S k)) by (field; exact Hh).
    rewrite tp_S, Rabs_mult. assert (Rabs (tp h k) <= 1).
    { unfold tp. destruct Rle_dec; [|rewrite Rabs_R0; lra]. rewrite <- RPow_abs. apply Rle_trans with (1 ^ k); [|rewrite pow1; lra].
      apply pow_incr. split; [apply Rabs_pos|lra]. }
    pose proof (Rabs_pos h). nra.
  - destruct (derivable_pt_lim_pow x (S (S k)) eps He) as [d Hd]. cbn [Nat.pred] in Hd.
    assert (Hm : 0 < Rmin d x) by (apply Rmin_pos; [apply cond_pos|exact H]).
    exists (mkposreal _ Hm). intros h Hh Hl. simpl in Hl.
    assert (L1 : Rabs h < d) by (eapply Rlt_le_trans; [exact Hl|apply Rmin_l]).
    assert (L2 : Rabs h < x) by (eapply Rlt_le_trans; [exact Hl|apply Rmin_r]). apply Rabs_def2 in L2.
    rewrite !tp_pos by lra. apply Hd; assumption.
Qed.
Lemma Rsum_deriv {A} (g : A -> R -> R) (g' : A -> R) l y :
  (forall i, In i l -> derivable_pt_lim (g i) y (g' i)) ->
  derivable_pt_lim (fun y => Rsum (map (fun i => g i y) l)) y (Rsum (map g' l)).
Proof.
  induction l as [|a l IH]; intros H; cbn [map].
  - apply (derivable_pt_lim_const 0 y).
  - rewrite Rsum_cons.
    assert (D : derivable_pt_lim (fun y => g a y + Rsum (map (fun i => g i y) l)) y (g' a + Rsum (map g' l))).
    { apply (derivable_pt_lim_plus (g a)); [apply H; left; reflexivity|apply IH; intros; apply H; right; assumption]. }
    exact D.
Qed.
Lemma Sf_deriv n k y : 0 < y ->
  derivable_pt_lim (Sf (S n) (S (S k))) y (INR (S n) * INR (S (S k)) * y ^ S k * spl n (S k) ((1 - y) / y)).
Proof.
  intros Hy. unfold Sf.
  set (g := fun i y => (-1) ^ i * comb (S n) i * tp (1 - INR i * y) (S (S k))).
  set (g' := fun i => (-1) ^ i * comb (S n) i * (INR (S (S k)) * tp (1 - INR i * y) (S k) * - INR i)).
  replace (INR (S n) * INR (S (S k)) * y ^ S k * spl n (S k) ((1 - y) / y)) with (Rsum (map g' (seq 0 (S (S n))))).
  - apply (Rsum_deriv g g'). intros i _. unfold g, g'. apply (derivable_pt_lim_scal (fun y => tp (1 - INR i * y) (S (S k)))).
    apply (derivable_pt_lim_comp (fun y => 1 - INR i * y) (fun x => tp x (S (S k)))).
    + replace (- INR i) with (0 - (INR i * 1)) by ring.
      apply (derivable_pt_lim_minus (fun _ => 1) (fun y => INR i * y)); [apply derivable_pt_lim_const|].
      apply (derivable_pt_lim_scal (fun y => y)), derivable_pt_lim_id.
    + apply tp_deriv.
  - rewrite seq_cons. cbn [map]. rewrite Rsum_cons, map_map. unfold g' at 1. simpl (INR 0). rewrite Ropp_0, !Rmult_0_r, Rplus_0_l.
    rewrite Rmult_assoc, <- (Sf_scale n (S k) y (1 - y) Hy), <- Rsum_map_scal. apply Rsum_map_ext. intros i _. unfold g'.
    replace (1 - y - INR i * y) with (1 - INR (S i) * y) by (rewrite S_INR; ring).
    pose proof (comb_absorb n i) as A. cbn [pow].
    transitivity ((-1) ^ i * INR (S (S k)) * tp (1 - INR (S i) * y) (S k) * (INR (S i) * comb (S n) (S i))); [ring|].
    rewrite A. ring.
Qed.
Lemma Sf_strict n y1 y2 : (2 <= n)%nat -> / INR n <= y1 -> y1 < y2 -> y2 <= 1 -> Sf n (n - 1) y1 < Sf n (n - 1) y2.
Proof.
  intros Hn H1 H12 H2. assert (Hi : 0 < / INR n) by (apply Rinv_0_lt_compat, lt_0_INR; lia).
  destruct n as [|[|[|n]]]; try lia.
  - cbn [Nat.sub]. unfold Sf. cbn [seq map]. rewrite ?Rsum_cons, ?Rsum_nil.
    rewrite comb_0, comb_nn. replace (comb 2 1) with 2.
    2:{ rewrite comb_pascal, comb_0, comb_nn. ring. }
    simpl INR in *. rewrite !(tp_pos (1 - 0 * _)), !(tp_pos (1 - 1 * _)) by lra.
    assert (T : forall y, / (1 + 1) <= y -> tp (1 - (1 + 1) * y) 1 = 0).
    { intros y H. rewrite tp_S. destruct (Req_dec (1 - (1 + 1) * y) 0) as [->|D]; [ring|]. rewrite tp_neg; [ring|]. lra. }
    rewrite !T by lra. simpl. lra.
  - cbn [Nat.sub]. set (m := n) in *.
    destruct (MVT_cor2 (Sf (S (S (S m))) (S (S m)))
      (fun y => INR (S (S (S m))) * INR (S (S m)) * y ^ S m * spl (S (S m)) (S m) ((1 - y) / y)) y1 y2 H12) as (c & E & Hc).
    + intros c Hc. apply Sf_deriv. lra.
    + assert (0 < c) by lra. assert (0 < INR (S (S (S m))) * INR (S (S m)) * c ^ S m * spl (S (S m)) (S m) ((1 - c) / c)); [|nra].
      apply Rmult_lt_0_compat; [apply Rmult_lt_0_compat; [apply Rmult_lt_0_compat; apply lt_0_INR; lia|apply pow_lt; lra]|].
      apply spl_sign. split; [apply Rdiv_lt_0_compat; lra|].
      assert (1 < c * INR (S (S (S m)))).
      { assert (/ INR (S (S (S m))) * INR (S (S (S m))) = 1) by (field; apply not_0_INR; lia).
        assert (0 < INR (S (S (S m)))) by (apply lt_0_INR; lia). nra. }
      rewrite (S_INR (S (S m))) in *. apply Rmult_lt_reg_r with c; [lra|]. replace ((1 - c) / c * c) with (1 - c) by (field; lra). lra.
Qed.
Lemma Sf_one n : (2 <= n)%nat -> Sf n (n - 1) 1 = 1.
Proof.
  intros Hn. unfold Sf. rewrite seq_cons. cbn [map]. rewrite Rsum_cons, map_map, (Rsum_map_ext _ (fun _ => 0)).
  - rewrite Rsum_map_const, comb_0. simpl (INR 0). rewrite tp_pos by lra. rewrite Rmult_0_l, Rminus_0_r, pow1. simpl. ring.
  - intros i _. destruct n as [|[|n]]; try lia. cbn [Nat.sub]. rewrite tp_S. destruct i as [|i].
    + simpl INR. ring.
    + rewrite tp_neg; [ring|]. rewrite !S_INR. pose proof (pos_INR i). lra.
Qed.
Lemma Sf_low n : (1 <= n)%nat -> Sf n (n - 1) (/ INR n) = 0.
Proof.
  intros Hn. assert (0 < INR n) by (apply lt_0_INR; lia). rewrite Sf_spl by (apply Rinv_0_lt_compat; assumption).
  destruct n as [|n]; [lia|]. cbn [Nat.sub]. rewrite Nat.sub_0_r. rewrite (proj1 (proj2 (spl_sign n _))); [ring|].
  right. right. field. lra.
Qed.
Lemma range_p_Sf n r : (1 <= n)%nat -> r <= 2 * PI * (1 - / INR n) -> 0 <= r -> range_p n r = 1 - Sf n (n - 1) (1 - r / (2 * PI)).
Proof.
  intros Hn Hr H0. pose proof PI_pos as Hp. assert (Hi : 0 < INR n) by (apply lt_0_INR; lia).
  unfold range_p. set (y := 1 - r / (2 * PI)). set (stop := Z.to_nat (Rfloor (1 / y))).
  assert (Hy : / INR n <= y).
  { unfold y. apply Rmult_le_reg_r with (2 * PI); [lra|]. replace ((1 - r / (2 * PI)) * (2 * PI)) with (2 * PI - r) by (field; lra). lra. }
  assert (Py : 0 < y) by (assert (0 < / INR n) by (apply Rinv_0_lt_compat, Hi); lra).
  assert (Fy : 0 <= 1 / y <= INR n).
  { split; [left; apply Rdiv_lt_0_compat; lra|]. apply Rmult_le_reg_r with y; [exact Py|]. replace (1 / y * y) with 1 by (field; lra).
    apply Rmult_le_reg_l with (/ INR n); [apply Rinv_0_lt_compat, Hi|]. rewrite <- Rmult_assoc, Rinv_l by lra. lra. }
  destruct (Rfloor_spec (1 / y)) as [F1 F2].
  assert (F0 : (0 <= Rfloor (1 / y))%Z).
  { assert (-1 < Rfloor (1 / y))%Z by (apply lt_IZR; lra). lia. }
  assert (Es : INR stop = IZR (Rfloor (1 / y))) by (unfold stop; rewrite INR_IZR_INZ, Z2Nat.id by exact F0; reflexivity).
  assert (Ls : (stop <= n)%nat) by (apply INR_le; lra).
  assert (In1 : forall i, (i <= stop)%nat -> 0 <= 1 - INR i * y).
  { intros i Hl. apply le_INR in Hl. assert (INR i <= 1 / y) by lra. assert (1 / y * y = 1) by (field; lra). nra. }
  assert (Out : forall i, (stop < i)%nat -> 1 - INR i * y < 0).
  { intros i Hl. apply (le_INR (S stop)) in Hl. rewrite S_INR in Hl. assert (1 / y < INR i) by lra. assert (1 / y * y = 1) by (field; lra). nra. }
  unfold Sf. replace (S n) with (S stop + (n - stop))%nat by lia. rewrite seq_app, map_app, Rsum_app.
  rewrite (Rsum_map_ext (fun i => (-1) ^ i * comb n i * tp (1 - INR i * y) (n - 1)) (fun _ => 0) (seq (0 + S stop) _)).
  2:{ intros i Hl. apply in_seq in Hl. rewrite tp_neg by (apply Out; lia). ring. }
  rewrite Rsum_map_const. cbn [seq map]. rewrite Rsum_cons, comb_0. simpl (INR 0).
  rewrite (tp_pos (1 - 0 * y)) by lra. rewrite Rmult_0_l, Rminus_0_r, pow1.
  rewrite (Rsum_map_ext (fun i => (-1) ^ i * comb n i * tp (1 - INR i * y) (n - 1))
             (fun i => -1 * ((-1) ^ (i - 1) * comb n i * (1 - INR i * y) ^ (n - 1)))).
  - rewrite Rsum_map_scal. simpl. ring.
  - intros i Hl. apply in_seq in Hl. rewrite tp_pos by (apply In1; lia). destruct i as [|i]; [lia|].
    replace (S i - 1)%nat with i by lia. cbn [pow]. ring.
Qed.

(** ** The range of a sample *)
Lemma pymod_forall2 alpha : Forall2 same_dir (map (fun a => pymod a (2 * PI)) alpha) alpha.
Proof. induction alpha; constructor; auto. apply pymod_same_dir. Qed.
Lemma equally_spaced_dirs a b : Forall2 same_dir a b -> equally_spaced a -> equally_spaced b.
Proof.
  intros F (c & l & P & G). pose proof (Forall2_len _ _ _ F) as L.
  destruct (Permutation_Forall2 P F) as (l' & P' & F'). exists c, l'. split; [exact P'|]. rewrite <- L.
  clear - G F'. revert l' F'. generalize dependent (map (fun i => c + 2 * PI * INR i / INR (length a)) (seq 0 (length a))).
  intros g G. induction G as [|x y l g H G IH]; intros l' F'; inversion F'; subst; constructor; auto.
  destruct H as [k E]. match goal with H : same_dir x _ |- _ => destruct H as [j E'] end.
  exists (k - j)%Z. rewrite minus_IZR. lra.
Qed.
Lemma equally_spaced_mod alpha : equally_spaced (map (fun a => pymod a (2 * PI)) alpha) <-> equally_spaced alpha.
Proof.
  pose proof (pymod_forall2 alpha) as F. split; apply equally_spaced_dirs; [exact F|].
  clear - F. induction F; constructor; auto. destruct H as [k E]. exists (- k)%Z. rewrite opp_IZR. lra.
Qed.
Lemma mod_within alpha : within_turn (map (fun a => pymod a (2 * PI)) alpha).
Proof.
  pose proof TP_pos as Hp. intros x y Hx Hy. apply in_map_iff in Hx. apply in_map_iff in Hy.
  destruct Hx as (a & <- & _). destruct Hy as (b & <- & _).
  pose proof (pymod_range a (2 * PI) Hp). pose proof (pymod_range b (2 * PI) Hp). lra.
Qed.
Lemma all_eq_avg l h : (forall x, In x l -> x <= h) -> Rsum l = INR (length l) * h -> forall x, In x l -> x = h.
Proof.
  intros H S x Hx. assert (E : Rsum (map (fun x => h - x) l) = 0).
  { rewrite Rsum_map_minus, Rsum_map_const, map_id, S. ring. }
  assert (N : forall x, In x l -> 0 <= h - x) by (intros y Hy; specialize (H y Hy); lra).
  pose proof (Rsum_map_0 _ _ N E x Hx). cbn beta in *. lra.
Qed.
Lemma circ_range_spacings alpha : alpha <> [] -> exists x t,
  Permutation (x :: t) (rspacings (map (fun a => pymod a (2 * PI)) alpha)) /\ circ_range alpha = Ok (2 * PI - Rlmax x t).
Proof.
  intros Hn. unfold circ_range, rspacings. set (s := map (fun a => pymod a (2 * PI)) alpha).
  destruct (nsort s) as [|y l] eqn:E.
  - exfalso. apply Hn. apply (f_equal (@length R)) in E. rewrite sort_length in E. unfold s in E. rewrite map_length in E.
    now apply length_zero_iff_nil in E.
  - cbn [diff]. eexists. eexists. split; [|reflexivity]. cbn [hd].
    transitivity ((y - (last (y :: l) 0 - 2 * PI)) :: diff (y :: l)); [reflexivity|].
    etransitivity; [apply Permutation_cons_append|]. apply Permutation_app_head.
    replace (y - (last (y :: l) 0 - 2 * PI)) with (TP - last (y :: l) 0 + y) by (unfold TP; ring). reflexivity.
Qed.
Lemma range_top alpha r : alpha <> [] -> circ_range alpha = Ok r ->
  (r = 2 * PI * (1 - / INR (length alpha)) <-> equally_spaced alpha).
Proof.
  intros Hn E. pose proof TP_pos as Hp. rewrite <- equally_spaced_mod. set (s := map (fun a => pymod a (2 * PI)) alpha).
  assert (Ls : length s = length alpha) by apply map_length.
  assert (Sn : s <> []) by (intros Z; apply (f_equal (@length R)) in Z; rewrite Ls in Z; now apply length_zero_iff_nil in Z).
  assert (Hl : 0 < INR (length s)) by (apply lt_0_INR; destruct s; [congruence|simpl; lia]).
  destruct (circ_range_spacings alpha Hn) as (x & t & P & E2). rewrite E2 in E. injection E as <-. fold s in P.
  rewrite <- (proj1 (proj2 (rao_bounds s Sn (mod_within alpha)))). rewrite <- Ls.
  set (h := TP / INR (length s)).
  assert (Q : Rlmax x t = h <-> forall z, In z (rspacings s) -> z = h).
  { destruct (Rlmax_ge x t) as [G1 G2]. pose proof (Rlmax_in x t) as G3. split.
    - intros Eh. apply all_eq_avg.
      + intros z Hz. apply (Permutation_in _ (Permutation_sym P)) in Hz. destruct Hz as [<-|Hz]; rewrite <- Eh; auto.
      + rewrite rspacings_sum, rspacings_len by exact Sn. unfold h. field. lra.
    - intros K. apply K. apply (Permutation_in _ P), G3. }
  assert (U : rao_U s = 0 <-> forall z, In z (rspacings s) -> z = h).
  { destruct (spacing_bound (rspacings s) h) as (_ & B & _).
    - intros Z. pose proof (rspacings_len s Sn) as L. rewrite Z in L. simpl in L. rewrite <- L in Hl. simpl in Hl. lra.
    - apply Rdiv_lt_0_compat; assumption.
    - apply rspacings_nonneg; [exact Sn|apply mod_within].
    - rewrite rspacings_sum, rspacings_len by exact Sn. unfold h. field. lra.
    - rewrite <- B. reflexivity. }
  rewrite U, <- Q. unfold h, TP. split; intros Z.
  - assert (2 * PI / INR (length s) = 2 * PI - 2 * PI * (1 - / INR (length s))) by (field; lra). lra.
  - rewrite Z. field. lra.
Qed.
Lemma range_zero alpha r : alpha <> [] -> circ_range alpha = Ok r ->
  (r = 0 <-> forall a b, In a alpha -> In b alpha -> same_dir a b).
Proof.
  intros Hn E. destruct (circ_range_spec alpha Hn) as (L & E2 & C & _). rewrite E2 in E. injection E as ->.
  apply least_cover_iff in C. destruct C as (C0 & (lo & C1) & C2). split.
  - intros ->. rewrite Forall_forall in C1. intros a b Ha Hb.
    destruct (C1 a Ha) as (u & Hu & [i Ei]). destruct (C1 b Hb) as (v & Hv & [j Ej]).
    exists (i - j)%Z. rewrite minus_IZR, Ei, Ej. replace u with 0 by lra. replace v with 0 by lra. ring.
  - intros K. destruct alpha as [|x l]; [congruence|]. apply Rle_antisym; [|exact C0]. apply (C2 x 0); [lra|].
    apply Forall_forall. intros a Ha. exists 0. split; [lra|]. rewrite Rplus_0_r. apply K; [exact Ha|left; reflexivity].
Qed.
Lemma range_test_eval alpha : alpha <> [] -> Forall in_two_turns alpha ->
  exists r, circ_range alpha = Ok r /\ 0 <= r <= 2 * PI * (1 - / INR (length alpha)) /\
    circ_range_test alpha = Ok (r, range_p (length alpha) r).
Proof.
  intros Hn HF. destruct (circ_range_spec alpha Hn) as (L & E & C & U). exists L. split; [exact E|]. split; [destruct C; lra|].
  unfold circ_range_test. replace (Nat.eqb (length alpha) 0) with false by (destruct alpha; [congruence|reflexivity]).
  replace (existsb _ alpha) with false.
  - rewrite E. reflexivity.
  - symmetry. apply not_true_is_false. intros K. apply existsb_exists in K. destruct K as (a & Ha & K). apply Rltb_true in K.
    rewrite Forall_forall in HF. specialize (HF a Ha). unfold in_two_turns in HF. lra.
Qed.
Lemma y_of_r n r : 0 < n -> r <= 2 * PI * (1 - / n) -> 0 <= r ->
  / n <= 1 - r / (2 * PI) <= 1 /\ (1 - r / (2 * PI) = / n <-> r = 2 * PI * (1 - / n)) /\ (1 - r / (2 * PI) = 1 <-> r = 0).
Proof.
  intros Hn H1 H0. pose proof PI_pos as Hp. assert (E : r / (2 * PI) * (2 * PI) = r) by (field; lra).
  assert (0 <= r / (2 * PI)) by (apply Rmult_le_pos; [lra|left; apply Rinv_0_lt_compat; lra]).
  set (q := r / (2 * PI)) in *. split; [split; nra|]. split; split; intros; nra.
Qed.
Lemma range_test_valid alpha : alpha <> [] -> Forall in_two_turns alpha ->
  exists r p, circ_range_test alpha = Ok (r, p) /\ circ_range alpha = Ok r /\ 0 <= p <= 1 /\
    (p = 1 <-> equally_spaced alpha) /\
    ((2 <= length alpha)%nat -> (p = 0 <-> forall a b, In a alpha -> In b alpha -> same_dir a b)).
Proof.
  intros Hn HF. destruct (range_test_eval alpha Hn HF) as (r & Er & Br & Et).
  exists r, (range_p (length alpha) r). split; [exact Et|]. split; [exact Er|].
  rewrite <- (range_top alpha r Hn Er), <- (range_zero alpha r Hn Er).
  set (n := length alpha) in *. assert (Hl : (1 <= n)%nat) by (unfold n; destruct alpha; [congruence|simpl; lia]).
  assert (Hi : 0 < INR n) by (apply lt_0_INR; lia).
  rewrite range_p_Sf by (try tauto; exact Hl). destruct (y_of_r (INR n) r Hi) as (By & Y1 & Y0); [tauto|tauto|].
  set (y := 1 - r / (2 * PI)) in *. rewrite <- Y1, <- Y0.
  destruct (Nat.eq_dec n 1) as [N1|N1].
  - assert (Ey : y = / INR n) by (rewrite N1 in *; simpl INR in *; rewrite Rinv_1 in *; lra).
    rewrite Ey, Sf_low by exact Hl. repeat split; try lra; try (intros; lia).
  - assert (N2 : (2 <= n)%nat) by lia. pose proof (Sf_low n Hl) as S0. pose proof (Sf_one n N2) as S1.
    assert (In1 : / INR n < 1).
    { apply Rmult_lt_reg_r with (INR n); [lra|]. rewrite Rinv_l by lra. assert (1 < INR n) by (apply (lt_INR 1); lia). lra. }
    assert (M0 : / INR n < y -> 0 < Sf n (n - 1) y) by (intros; rewrite <- S0; apply Sf_strict; lra || assumption).
    assert (M1 : y < 1 -> Sf n (n - 1) y < 1) by (intros; apply Rlt_le_trans with (Sf n (n - 1) 1); [apply Sf_strict; lra || assumption|lra]).
    destruct By as [By1 By2].
    assert (D0 : / INR n = y \/ / INR n < y) by lra. assert (D1 : y = 1 \/ y < 1) by lra.
    split; [|split; [|intros _]].
    + destruct D0 as [D0|D0]; [rewrite <- D0, S0; lra|]. destruct D1 as [D1|D1]; [rewrite D1, S1; lra|].
      specialize (M0 D0). specialize (M1 D1). lra.
    + split; intros Z; [|rewrite Z, S0; lra]. destruct D0 as [D0|D0]; [lra|]. specialize (M0 D0). lra.
    + split; intros Z; [|rewrite Z, S1; lra]. destruct D1 as [D1|D1]; [lra|]. specialize (M1 D1). lra.
Qed.
Lemma range_test_strict a b ra pa rb pb : length a = length b ->
  circ_range_test a = Ok (ra, pa) -> circ_range_test b = Ok (rb, pb) -> ra < rb -> pa < pb.
Proof.
  intros L. unfold circ_range_test. rewrite <- L. destruct (Nat.eqb (length a) 0) eqn:E0; [discriminate|]. apply Nat.eqb_neq in E0.
  destruct (existsb _ a); [discriminate|]. destruct (existsb _ b); [discriminate|].
  assert (Ha : a <> []) by (intros ->; apply E0; reflexivity).
  assert (Hb : b <> []) by (intros ->; apply E0; rewrite L; reflexivity).
  destruct (circ_range_spec a Ha) as (La & -> & Ca & Ua). destruct (circ_range_spec b Hb) as (Lb & -> & Cb & Ub).
  cbn [bind]. intros E1 E2 H. injection E1 as <- <-. injection E2 as <- <-. rewrite <- L in Ub.
  destruct Ca as [Ca _]. destruct Cb as [Cb _]. set (n := length a) in *.
  assert (Hl : (1 <= n)%nat) by lia. assert (Hi : 0 < INR n) by (apply lt_0_INR; lia).
  assert (N2 : (2 <= n)%nat).
  { destruct (Nat.eq_dec n 1) as [N1|]; [|lia]. rewrite N1 in Ub. simpl INR in Ub. rewrite Rinv_1 in Ub. lra. }
  rewrite !range_p_Sf by assumption.
  destruct (y_of_r (INR n) La Hi Ua Ca) as (Ba & _). destruct (y_of_r (INR n) Lb Hi Ub Cb) as (Bb & _).
  pose proof PI_pos as Hp. assert (La / (2 * PI) < Lb / (2 * PI)) by (apply Rmult_lt_compat_r; [apply Rinv_0_lt_compat; lra|exact H]).
  assert (Sf n (n - 1) (1 - Lb / (2 * PI)) < Sf n (n - 1) (1 - La / (2 * PI))); [|lra]. apply Sf_strict; lra || assumption.
Qed.
Lemma range_test_errors alpha : (alpha = [] \/ Exists (fun a => ~ in_two_turns a) alpha) <-> circ_range_test alpha = Err ValueError.
Proof.
  split.
  - intros [->|H]; [reflexivity|]. unfold circ_range_test. destruct (Nat.eqb (length alpha) 0); [reflexivity|].
    replace (existsb _ alpha) with true; [reflexivity|]. symmetry. apply existsb_exists. apply Exists_exists in H.
    destruct H as (a & Ha & K). exists a. split; [exact Ha|]. apply Rltb_true. unfold in_two_turns in K. lra.
  - intros E. destruct alpha as [|x l] eqn:Ea; [left; reflexivity|]. right. rewrite <- Ea in *.
    destruct (Exists_dec (fun a => ~ in_two_turns a) alpha) as [H|H]; [|exact H|].
    + intros a. unfold in_two_turns. destruct (Rle_dec (Rabs a) (2 * PI + / 100000000)); [right|left]; tauto.
    + exfalso. destruct (range_test_eval alpha) as (r & _ & _ & E2).
      * rewrite Ea. discriminate.
      * apply Forall_forall. intros a Ha. destruct (Rle_dec (Rabs a) (2 * PI + / 100000000)) as [K|K]; [exact K|].
        exfalso. apply H, Exists_exists. exists a. split; [exact Ha|]. exact K.
      * rewrite E2 in E. discriminate.
Qed.
Lemma range_test_same a b : a <> [] -> b <> [] -> length a = length b -> Forall in_two_turns a -> Forall in_two_turns b ->
  circ_range a = circ_range b -> circ_range_test a = circ_range_test b.
Proof.
  intros Ha Hb L Fa Fb E. destruct (range_test_eval a Ha Fa) as (r & Er & _ & ->). destruct (range_test_eval b Hb Fb) as (r' & Er' & _ & ->).
  rewrite E, Er' in Er. injection Er as <-. now rewrite L.
Qed.
Lemma turned_split t a b : turned_by t a b -> turned (map (fun x => x + t) a) b.
Proof. intros F. induction F; constructor; auto. destruct H as [k E]. exists (- k)%Z. rewrite opp_IZR. lra. Qed.
Lemma range_test_turned t a b : a <> [] -> Forall in_two_turns a -> Forall in_two_turns b -> turned_by t a b ->
  circ_range_test b = circ_range_test a.
Proof.
  intros Ha Fa Fb H. destruct circ_range_invariant as (I1 & _ & I3 & _).
  apply range_test_same; auto.
  - eapply same_len_nonempty; [apply (turned_by_len _ _ _ H)|exact Ha].
  - apply (turned_by_len _ _ _ H).
  - rewrite <- (I1 a t Ha). apply I3; [destruct a; [congruence|discriminate]|]. apply turned_split, H.
Qed.
Lemma range_test_mirrored t a b : a <> [] -> Forall in_two_turns a -> Forall in_two_turns b -> mirrored t a b ->
  circ_range_test b = circ_range_test a.
Proof.
  intros Ha Fa Fb H. destruct circ_range_invariant as (I1 & I2 & I3 & _).
  apply range_test_same; auto.
  - eapply same_len_nonempty; [apply (mirrored_len _ _ _ H)|exact Ha].
  - apply (mirrored_len _ _ _ H).
  - assert (Hm : map Ropp a <> []) by (destruct a; [congruence|discriminate]).
    rewrite <- (I2 a Ha), <- (I1 _ t Hm). apply I3; [destruct a; [congruence|discriminate]|].
    clear - H. induction H; constructor; auto. destruct H as [k E]. exists (- k)%Z. rewrite opp_IZR. lra.
Qed.
Lemma range_test_permuted a b : Permutation a b -> circ_range_test b = circ_range_test a.
Proof.
  intros P. unfold circ_range_test. rewrite (Permutation_length P).
  destruct (Nat.eqb (length b) 0) eqn:E0; [reflexivity|].
  assert (Ha : a <> []) by (intros ->; apply Permutation_nil in P; subst; discriminate).
  destruct circ_range_invariant as (_ & _ & _ & I4). rewrite (I4 a b Ha P).
  assert (Ex : forall p, existsb p a = existsb p b).
  { intros p. destruct (existsb p b) eqn:E.
    - apply existsb_exists in E. destruct E as (x & Hx & K). apply existsb_exists. exists x. split; [|exact K].
      apply (Permutation_in _ (Permutation_sym P)), Hx.
    - apply not_true_is_false. intros K. apply existsb_exists in K. destruct K as (x & Hx & K).
      assert (existsb p b = true) by (apply existsb_exists; exists x; split; [apply (Permutation_in _ P), Hx|exact K]). congruence. }
  now rewrite Ex.
Qed.
