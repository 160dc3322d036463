From Verif Require Import Prelude NpModel NpProofs CircleSpec UtilsModel UtilsProofs DescModel DescProofs
  DescSpec DescApi DescApi2 Desc2Model Desc2Proofs Desc2Spec ArcProofs Desc3Proofs Desc4Proofs Desc6Proofs Desc7Proofs Desc2Ex HypModel HypProofs
  BaseModel BaseSpec BaseProofs Base2Proofs Base3Proofs Base4Proofs Base11Proofs.
Open Scope R_scope.

Lemma in_crossing w h i : In i (crossing w h) <-> (i < 2 * h)%nat /\ lsum w h i <= Rsum w / 2 <= lsum w h (S i).
Proof.
  unfold crossing. rewrite filter_In, in_seq, Bool.andb_true_iff.
  destruct (Rleb_spec (lsum w h i) (Rsum w / 2)); destruct (Rleb_spec (Rsum w / 2) (lsum w h (S i))); intuition (try lia; try lra; try discriminate).
Qed.
Lemma crossing_nodup w h : NoDup (crossing w h).
Proof. apply NoDup_filter, seq_NoDup. Qed.
Lemma grouped_split a w h m : (1 <= h)%nat -> INR h <= 500000 -> length w = (2 * h)%nat -> counts w ->
  circ_median_grouped (bin_centres a (2 * h)) w = Ok (MOne m) ->
  exists i f, (i < 2 * h)%nat /\ 0 <= f <= 1 /\ m = ub_at a h i + f * (2 * PI / INR (2 * h)) /\
    half_mass w h i f = Rsum w / 2.
Proof.
  intros Hh Hh' Hl Hc E. rewrite grouped_even in E by auto. cbv zeta in E.
  destruct (Nat.eqb _ _); [discriminate|]. pose proof (in_crossing w h) as IC.
  destruct (crossing w h) as [|i [|i' t]].
  - cbn in E. discriminate.
  - destruct (IC i) as (C & _). destruct C as (C1 & C2); [now left|].
    rewrite Rmax_right, Rmin_left in E by lra. destruct (Reqb_spec (lsum w h (S i)) (lsum w h i)) as [|N]; [discriminate|].
    match type of E with Ok (MOne ?e) = _ => assert (E' : m = e) by congruence end. clear E. subst m. exists i, ((Rsum w / 2 - lsum w h i) / (lsum w h (S i) - lsum w h i)).
    assert (P : 0 < lsum w h (S i) - lsum w h i) by lra. split; [exact C1|].
    split.
    + split; [apply Rmult_le_pos; [lra|left; now apply Rinv_0_lt_compat]|].
      apply (Rmult_le_reg_r (lsum w h (S i) - lsum w h i)); [exact P|]. unfold Rdiv. rewrite Rmult_assoc, Rinv_l by lra. lra.
    + split; [ring|]. rewrite lsum_mass by auto. field. lra.
  - destruct (nth_err _ 0) as [i0|]; [|discriminate]. cbn [bind] in E. destruct (nth_err _ 1) as [i1|]; [|discriminate]. cbn [bind] in E.
    destruct (isclose _ PI); discriminate.
Qed.
(** * No failure for an even number of bins *)
Lemma first_up (P : nat -> Prop) (dec : forall i, P i \/ ~ P i) i0 n : ~ P i0 -> P (i0 + n)%nat ->
  exists e, (i0 <= e < i0 + n)%nat /\ P (S e) /\ forall i, (i0 <= i <= e)%nat -> ~ P i.
Proof.
  revert i0. induction n; intros i0 N Y; [rewrite Nat.add_0_r in Y; contradiction|].
  destruct (dec (S i0)) as [D|D].
  - exists i0. split; [lia|]. split; [exact D|]. intros i Hi. replace i with i0 by lia. exact N.
  - destruct (IHn (S i0) D) as (e & E1 & E2 & E3); [replace (S i0 + n)%nat with (i0 + S n)%nat by lia; exact Y|].
    exists e. split; [lia|]. split; [exact E2|]. intros i Hi. destruct (Nat.eq_dec i i0) as [->|]; [exact N|]. apply E3. lia.
Qed.
Lemma last_up (P : nat -> Prop) (dec : forall i, P i \/ ~ P i) i0 n : ~ P i0 -> P (i0 + n)%nat ->
  exists e, (i0 <= e < i0 + n)%nat /\ ~ P e /\ forall i, (e < i <= i0 + n)%nat -> P i.
Proof.
  induction n; intros N Y; [rewrite Nat.add_0_r in Y; contradiction|].
  destruct (dec (i0 + n)%nat) as [D|D].
  - destruct (IHn N D) as (e & E1 & E2 & E3). exists e. split; [lia|]. split; [exact E2|].
    intros i Hi. destruct (Nat.eq_dec i (i0 + S n)) as [->|]; [exact Y|]. apply E3. lia.
  - exists (i0 + n)%nat. split; [lia|]. split; [exact D|]. intros i Hi. replace i with (i0 + S n)%nat by lia. exact Y.
Qed.
Lemma two_in (l : list nat) a b : NoDup l -> In a l -> In b l -> a <> b -> (2 <= length l)%nat.
Proof.
  intros _ Ha Hb N. destruct l as [|x [|y t]]; cbn in *; try contradiction; [|lia].
  destruct Ha as [<-|[]]. destruct Hb as [<-|[]]. congruence.
Qed.
Lemma one_in (l : list nat) a : NoDup l -> In a l -> (forall b, In b l -> b = a) -> l = [a].
Proof.
  intros ND Ha H. destruct l as [|x [|y t]]; [contradiction|rewrite (H x) by (simpl; auto); reflexivity|].
  exfalso. apply NoDup_cons_iff in ND. destruct ND as (N & _). rewrite (H x) in N by (simpl; auto). rewrite (H y) in N by (simpl; auto). apply N, in_eq.
Qed.
Lemma crossing_shape w h : (1 <= h)%nat -> length w = (2 * h)%nat ->
  length (crossing w h) = (2 * h)%nat \/ (exists i, crossing w h = [i]) \/
  (2 <= length (filter (fun i => negb (Reqb (lsum w h i) (lsum w h (S i)))) (crossing w h)))%nat.
Proof.
  intros Hh Hl. set (T := Rsum w / 2). set (L := lsum w h).
  assert (An : forall i, L (i + h)%nat = 2 * T - L i) by (intros i; pose proof (lsum_anti w h i Hl); unfold L, T; lra).
  assert (Md : forall i, L (i mod (2 * h)) = L i) by (intros; apply lsum_mod; auto).
  assert (MdS : forall i, L (S (i mod (2 * h))) = L (S i)).
  { intros i. rewrite <- (Md (S i)), <- (Md (S (i mod (2 * h)))). f_equal.
    replace (S (i mod (2 * h))) with (i mod (2 * h) + 1)%nat by lia. replace (S i) with (i + 1)%nat by lia. apply Nat.add_mod_idemp_l. lia. }
  assert (Cr : forall i, L i <= T <= L (S i) -> In (i mod (2 * h)) (crossing w h)).
  { intros i H. apply in_crossing. fold L T. rewrite Md, MdS. split; [apply Nat.mod_upper_bound; lia|exact H]. }
  assert (Se : forall i, L i <= T <= L (S i) -> L i <> L (S i) ->
    In (i mod (2 * h)) (filter (fun i => negb (Reqb (lsum w h i) (lsum w h (S i)))) (crossing w h))).
  { intros i H N. apply filter_In. split; [apply Cr, H|]. fold L. rewrite Md, MdS. destruct (Reqb_spec (L i) (L (S i))); [contradiction|reflexivity]. }
  destruct (forallb (fun i => Reqb (L i) T) (seq 0 (2 * h))) eqn:A0.
  { assert (A : forall i, (i < 2 * h)%nat -> L i = T).
    { intros i Hi. rewrite forallb_forall in A0. apply Reqb_true, A0, in_seq. lia. }
    left. unfold crossing. fold L T.
    assert (FA : forall l, (forall i, In i l -> (i < 2 * h)%nat) -> filter (fun i => Rleb (L i) T && Rleb T (L (S i))) l = l).
    { induction l as [|i l IH]; intros Hi; [reflexivity|]. cbn [filter]. rewrite (A i) by (apply Hi; now left).
      replace (L (S i)) with T.
      - destruct (Rleb_spec T T); [|lra]. cbn [andb]. rewrite IH; [reflexivity|]. intros j Hj. apply Hi. now right.
      - rewrite <- (Md (S i)), A; [reflexivity|]. apply Nat.mod_upper_bound. lia. }
    rewrite FA; [apply seq_length|]. intros i Hi. apply in_seq in Hi. lia. }
  right. assert (B : exists i0, L i0 < T).
  { assert (A : exists i, L i <> T).
    { clear - A0. induction (seq 0 (2 * h)) as [|i l IH]; [discriminate|]. cbn [forallb] in A0.
      destruct (Reqb_spec (L i) T); [apply IH, A0|eauto]. }
    destruct A as (i & A). destruct (Rtotal_order (L i) T) as [|[|G]]; [eauto|contradiction|]. exists (i + h)%nat. rewrite An. lra. }
  destruct B as (i0 & B).
  destruct (first_up (fun i => T <= L i) (fun i => match Rle_dec T (L i) with left a => or_introl a | right b => or_intror b end) i0 h) as (e & E1 & E2 & E3); [lra|rewrite An; lra|].
  destruct (last_up (fun i => T < L i) (fun i => match Rlt_dec T (L i) with left a => or_introl a | right b => or_intror b end) i0 h) as (e' & F1 & F2 & F3); [lra|rewrite An; lra|].
  assert (E3e : L e < T) by (apply Rnot_le_lt, E3; lia). assert (F3e : T < L (S e')) by (apply F3; lia).
  apply Rnot_lt_le in F2.
  destruct (Nat.eq_dec e e') as [<-|N].
  - left. exists (e mod (2 * h))%nat. apply one_in; [apply crossing_nodup|apply Cr; lra|].
    intros b Hb. apply in_crossing in Hb. fold L T in Hb. destruct Hb as (Hb & Hb').
    assert (Neg : forall i, (i0 <= i <= e)%nat -> L i < T) by (intros i Hi; apply Rnot_le_lt, E3, Hi).
    (* b lifted into the window that starts at i0 *)
    assert (exists b', (i0 <= b' < i0 + 2 * h)%nat /\ (b' mod (2 * h) = b)%nat) as (b' & W1 & W2).
    { pose proof (Nat.div_mod i0 (2 * h) ltac:(lia)) as Dm. pose proof (Nat.mod_upper_bound i0 (2 * h) ltac:(lia)) as Um.
      set (q := (i0 / (2 * h))%nat) in *. destruct (Nat.le_gt_cases (i0 mod (2 * h)) b) as [Q|Q].
      - exists (b + q * (2 * h))%nat. split; [lia|]. rewrite Nat.mod_add, Nat.mod_small by lia. reflexivity.
      - exists (b + (q + 1) * (2 * h))%nat. split; [lia|]. rewrite Nat.mod_add, Nat.mod_small by lia. reflexivity. }
    rewrite <- W2, Md, MdS in Hb'. rewrite <- W2. f_equal.
    destruct (Nat.lt_ge_cases b' (i0 + h)) as [Q|Q].
    + destruct (Nat.le_gt_cases b' e) as [Q'|Q'].
      * destruct (Nat.eq_dec b' e) as [|Ne]; [assumption|]. assert (L (S b') < T) by (apply Neg; lia). lra.
      * assert (T < L b') by (apply F3; lia). lra.
    + exfalso. replace b' with (b' - h + h)%nat in Hb' by lia. set (b2 := (b' - h)%nat) in *.
      replace (S (b2 + h)) with (S b2 + h)%nat in Hb' by lia. rewrite !An in Hb'.
      destruct (Nat.le_gt_cases b2 e) as [Q'|Q'].
      * assert (L b2 < T) by (apply Neg; lia). lra.
      * assert (T < L (S b2)) by (apply F3; lia). lra.
  - right. apply (two_in _ (e mod (2 * h)) (e' mod (2 * h))).
    + apply NoDup_filter, crossing_nodup.
    + apply Se; lra.
    + apply Se; lra.
    + intros Q. pose proof (Nat.div_mod e (2 * h) ltac:(lia)) as D1. pose proof (Nat.div_mod e' (2 * h) ltac:(lia)) as D2. rewrite Q in D1.
      assert (e / (2 * h) = e' / (2 * h))%nat; [|nia]. nia.
Qed.
Lemma grouped_ok a w h : (1 <= h)%nat -> INR h <= 500000 -> length w = (2 * h)%nat -> counts w ->
  exists m, circ_median_grouped (bin_centres a (2 * h)) w = Ok m.
Proof.
  intros Hh Hh' Hl Hc. rewrite grouped_even by auto. cbv zeta.
  destruct (Nat.eqb_spec (length (crossing w h)) (2 * h)) as [|N]; [eauto|].
  destruct (crossing_shape w h Hh Hl) as [|[(i & E)|G]]; [contradiction| |].
  - rewrite E. destruct (Reqb _ _); eauto.
  - set (sel := filter _ (crossing w h)) in *. assert (exists i0 i1 t, sel = i0 :: i1 :: t) as (i0 & i1 & t & Es).
    { destruct sel as [|i0 [|i1 t]]; cbn in G; try lia. eauto. }
    rewrite Es. cbn [nth_err nth_error bind]. destruct (crossing w h) as [|i [|i' u]]; [unfold sel in Es; discriminate| |].
    + destruct (Reqb _ _); eauto.
    + unfold nth_err; cbn [nth_error bind]. destruct (isclose _ PI); eauto.
Qed.
