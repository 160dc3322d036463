(** Circular-circular regression: the statistic is the scaled drop of the residual sum of squares. *)
From Verif Require Import Prelude NpModel UtilsModel NpProofs RegModel CircleSpec RegSpec RegProofs Reg2Proofs Reg3Proofs Reg4Proofs Reg5Proofs Reg6Proofs.

Definition XX (X : mat) (n m : nat) : mat := mmul m n m (tr n m X) X.
Definition MM (X B : mat) (n m : nat) : mat := mmul n m n (mmul n m m X B) (tr n m X).
Definition HH (X W B : mat) (n m q : nat) : mat := mmul q n q (mmul q n n (tr n q W) (msub n n (eye n) (MM X B n m))) W.
Lemma XX_ent X n m j k : (j < m)%nat -> (k < m)%nat -> ent (XX X n m) j k = sumn n (fun i => ent X i j * ent X i k).
Proof. intros Hj Hk. unfold XX, mmul. rewrite ent_mat_of by auto. apply sumn_ext. intros i Hi. unfold tr. now rewrite ent_mat_of by auto. Qed.
Lemma MM_ent X B n m i k : (i < n)%nat -> (k < n)%nat -> ent (MM X B n m) i k = sumn m (fun l => sumn m (fun j => ent X i j * ent B j l) * ent X k l).
Proof.
  intros Hi Hk. unfold MM, mmul. rewrite ent_mat_of by auto. apply sumn_ext. intros l Hl. unfold tr. rewrite !ent_mat_of by auto. reflexivity.
Qed.
Lemma HH_ent X W B n m q k k' : (k < q)%nat -> (k' < q)%nat ->
  ent (HH X W B n m q) k k' = sumn n (fun i => sumn n (fun a => ent W a k * (delta a i - sumn m (fun l => sumn m (fun j => ent X a j * ent B j l) * ent X i l))) * ent W i k').
Proof.
  intros Hk Hk'. unfold HH, mmul at 1. rewrite ent_mat_of by auto. apply sumn_ext. intros i Hi. f_equal. unfold mmul at 1. rewrite ent_mat_of by auto.
  apply sumn_ext. intros a Ha. unfold tr, msub, eye. rewrite !ent_mat_of by auto. rewrite MM_ent by auto. reflexivity.
Qed.
Lemma cc_N_ent inv pinv n m q X W i k : (i < n)%nat -> (k < n)%nat ->
  ent (cc_N inv pinv n m q X W) i k =
  sumn q (fun l => sumn q (fun j => ent W i j * ent (safe_inverse inv pinv (HH X W (safe_inverse inv pinv (XX X n m)) n m q)) j l) * ent W k l).
Proof.
  intros Hi Hk. unfold cc_N. cbv zeta. fold (XX X n m). fold (MM X (safe_inverse inv pinv (XX X n m)) n m). fold (HH X W (safe_inverse inv pinv (XX X n m)) n m q).
  set (Hm := safe_inverse inv pinv (HH X W (safe_inverse inv pinv (XX X n m)) n m q)). unfold mmul. rewrite ent_mat_of by auto. apply sumn_ext. intros l Hl. unfold tr. rewrite !ent_mat_of by auto. reflexivity.
Qed.
Lemma XX_shaped X n m : shaped m m (XX X n m).
Proof. apply shaped_mat_of. Qed.
Lemma HH_shaped X W B n m q : shaped q q (HH X W B n m q).
Proof. apply shaped_mat_of. Qed.

Lemma H_form (X W B : nat -> nat -> R) (n m q : nat) v k :
  Ap (fun k k' => sumn n (fun i => sumn n (fun a => W a k * (delta a i - sumn m (fun l => sumn m (fun j => X a j * B j l) * X i l))) * W i k')) q v k
  = Tu W n (fun i => Ap W q v i - Ap X m (Ap B m (Tu X n (Ap W q v))) i) k.
Proof.
  set (M := fun i k => sumn m (fun l => sumn m (fun j => X i j * B j l) * X k l)).
  assert (F1 : forall u i, Ap M n u i = Ap X m (Ap B m (Tu X n u)) i).
  { intros u i. unfold M. rewrite (Ap_mul _ (fun l k => X k l) n m). rewrite (Ap_mul X B m m). apply Ap_ext. intros j Hj. apply Ap_ext. intros l Hl. reflexivity. }
  set (z := Ap B m (Tu X n (Ap W q v))).
  rewrite (Ap_mul (fun k i => sumn n (fun a => W a k * (delta a i - M a i))) W q n).
  rewrite (Ap_mul (fun k a => W a k) (fun a i => delta a i - M a i) n n). unfold Tu. apply sumn_ext. intros i Hi. f_equal. unfold z. rewrite <- F1.
  transitivity (Ap delta n (Ap W q v) i - Ap M n (Ap W q v) i); [|now rewrite Ap_delta by exact Hi].
  unfold Ap at 1 3 5. rewrite <- sumn_minus. apply sumn_ext. intros. ring.
Qed.
Lemma null_nth n A y : shaped n n A -> null_vector n A y -> forall i, (i < n)%nat -> sumn n (fun j => ent A i j * nth j y 0) = 0.
Proof.
  intros [L _] (Hy & _ & Hz) i Hi. unfold ent. rewrite <- (inner_sum' n _ y Hy). apply Hz. apply nth_In. lia.
Qed.
Lemma nonzero_nth (y : list R) : (exists v, In v y /\ v <> 0) -> (forall v, In v y -> v = 0) -> False.
Proof. intros (v & Hv & Hn) H. exact (Hn (H v Hv)). Qed.
Lemma sumsq_zero n f : sumn n (fun i => f i * f i) = 0 -> forall i, (i < n)%nat -> f i = 0.
Proof.
  intros H i Hi. assert (f i * f i = 0) by (apply (sumn_zero n (fun i => f i * f i)); auto; intros; nra). nra.
Qed.

Lemma wmat_nth p o (rows : list (list R)) i : (i < length rows)%nat -> nth i (map (cc_wrow p o) rows) [] = cc_wrow p o (nth i rows []).
Proof. intros Hi. exact (nth_map_d (cc_wrow p o) rows i [] [] Hi). Qed.
Lemma xmat_ap p o rows b i : (i < length rows)%nat -> length b = (1 + 2 * (p * o))%nat ->
  Ap (ent (design p o rows)) (1 + 2 * (p * o)) (fun j => nth j b 0) i = trig_poly (cc_labels p o) b (nth i rows []).
Proof. intros Hi Hb. unfold Ap, ent. rewrite <- row_poly, <- (design_nth p o rows i Hi). symmetry. now apply inner_sum'. Qed.
Lemma wmat_ap p o rows v i : (i < length rows)%nat -> length v = (2 * p)%nat ->
  Ap (ent (map (cc_wrow p o) rows)) (2 * p) (fun j => nth j v 0) i = inner (cc_wrow p o (nth i rows [])) v.
Proof. intros Hi Hb. symmetry. transitivity (inner (nth i (map (cc_wrow p o) rows) []) v); [f_equal; symmetry; exact (wmat_nth p o rows i Hi)|]. exact (inner_sum' _ _ _ Hb). Qed.

Lemma XX_regular p o rows y : independent (cc_labels p (S o)) rows -> ~ null_vector (1 + 2 * (p * o)) (XX (design p o rows) (length rows) (1 + 2 * (p * o))) y.
Proof.
  intros Hind Hnull. pose proof Hnull as (Ly & Hne & _). apply (nonzero_nth y Hne).
  set (n := length rows) in *. set (m := (1 + 2 * (p * o))%nat) in *. set (X := ent (design p o rows)).
  assert (Hz := null_nth m _ y (XX_shaped _ _ _) Hnull).
  assert (Q : sumn n (fun i => Ap X m (fun j => nth j y 0) i * Ap X m (fun j => nth j y 0) i) = 0).
  { rewrite <- (adj X n m (Ap X m (fun j => nth j y 0)) (fun j => nth j y 0)). rewrite (sumn_ext _ _ (fun _ => 0)); [unfold sumn; rewrite Rsum_map_const; ring|].
    intros j Hj. assert (E : Tu X n (Ap X m (fun j => nth j y 0)) j = 0); [|rewrite E; ring].
    rewrite Tu_Ap, <- (Ap_mul (fun j i => X i j) X m n). etransitivity; [|exact (Hz j Hj)]. apply sumn_ext. intros k Hk. f_equal. symmetry. apply (XX_ent _ n m j k Hj Hk). }
  destruct (poly_join p o y (repeat 0 (2 * p)) Ly (repeat_length _ _)) as (b & Lb & Eb & Zb). apply Zb. apply Hind; [rewrite labels_length; exact Lb|].
  intros x Hx. destruct (In_nth _ _ [] Hx) as (i & Hi & <-). rewrite Eb, <- (xmat_ap p o rows y i Hi Ly). fold m X. rewrite (sumsq_zero n _ Q i Hi).
  rewrite wrow_inner. rewrite (sumn_ext _ _ (fun _ => 0)); [unfold sumn; rewrite Rsum_map_const; ring|]. intros j _. rewrite !nth_repeat. ring.
Qed.
Lemma HH_regular p o rows B y : independent (cc_labels p (S o)) rows ->
  (forall j l, (j < 1 + 2 * (p * o))%nat -> (l < 1 + 2 * (p * o))%nat -> Ap (fun j a => sumn (length rows) (fun i => ent (design p o rows) i j * ent (design p o rows) i a)) (1 + 2 * (p * o)) (fun a => ent B a l) j = delta j l) ->
  ~ null_vector (2 * p) (HH (design p o rows) (map (cc_wrow p o) rows) B (length rows) (1 + 2 * (p * o)) (2 * p)) y.
Proof.
  intros Hind HB Hnull. pose proof Hnull as (Ly & Hne & _). apply (nonzero_nth y Hne).
  set (n := length rows) in *. set (m := (1 + 2 * (p * o))%nat) in *. set (q := (2 * p)%nat) in *. set (X := ent (design p o rows)) in *. set (W := ent (map (cc_wrow p o) rows)) in *.
  assert (Hz := null_nth q _ y (HH_shaped _ _ _ _ _ _) Hnull). set (v := fun j => nth j y 0) in *.
  set (z := Ap (ent B) m (Tu X n (Ap W q v))). set (w := fun i => Ap W q v i - Ap X m z i).
  assert (T1 : forall k, (k < q)%nat -> Tu W n w k = 0).
  { intros k Hk. unfold w, z. rewrite <- (H_form X W (ent B) n m q v k). etransitivity; [|exact (Hz k Hk)]. apply sumn_ext. intros k' Hk'. f_equal. symmetry. apply (HH_ent _ _ B n m q k k' Hk Hk'). }
  assert (T2 : forall j, (j < m)%nat -> Tu X n w j = 0).
  { intros j Hj. unfold w. rewrite Tu_minus. unfold z. rewrite (Tu_Ap X n (Ap X m _)), <- (Ap_mul (fun j i => X i j) X m n), <- (Ap_mul _ (ent B) m m).
    assert (E : Ap (fun j k => sumn m (fun j1 => sumn n (fun j0 => X j0 j * X j0 j1) * ent B j1 k)) m (Tu X n (Ap W q v)) j = Tu X n (Ap W q v) j); [|rewrite E; ring].
    etransitivity; [|exact (Ap_delta m (Tu X n (Ap W q v)) j Hj)]. apply sumn_ext. intros l Hl. f_equal. apply (HB j l Hj Hl). }
  assert (Q : sumn n (fun i => w i * w i) = 0).
  { rewrite (sumn_ext _ _ (fun i => w i * Ap W q v i - w i * Ap X m z i)) by (intros; unfold w; ring). rewrite sumn_minus, <- !adj.
    rewrite (sumn_ext q _ (fun _ => 0)) by (intros k Hk; rewrite T1 by exact Hk; ring). rewrite (sumn_ext m _ (fun _ => 0)) by (intros k Hk; rewrite T2 by exact Hk; ring).
    unfold sumn. rewrite !Rsum_map_const. ring. }
  set (b1 := vec_of m (fun j => - z j)). assert (Lb1 : length b1 = m) by apply vec_of_length.
  destruct (poly_join p o b1 y Lb1 Ly) as (b & Lb & Eb & Zb). apply Zb. apply Hind; [rewrite labels_length; exact Lb|].
  intros x Hx. destruct (In_nth _ _ [] Hx) as (i & Hi & <-). rewrite Eb. transitivity (Ap X m (fun j => nth j b1 0) i + Ap W q v i); [f_equal; symmetry; [exact (xmat_ap p o rows b1 i Hi Lb1)|exact (wmat_ap p o rows y i Hi Ly)]|].
  transitivity (w i); [|exact (sumsq_zero n _ Q i Hi)]. unfold w.
  assert (E : Ap X m (fun j => nth j b1 0) i = - Ap X m z i); [|rewrite E; ring].
  unfold Ap. replace (- sumn m (fun j => X i j * z j)) with (-1 * sumn m (fun j => X i j * z j)) by ring. rewrite <- sumn_scal. apply sumn_ext. intros j Hj. unfold b1. rewrite nth_vec_of by exact Hj. ring.
Qed.
