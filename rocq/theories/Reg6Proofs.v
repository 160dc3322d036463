(** Circular-circular regression: the statistic of the test of the next harmonic. *)
From Verif Require Import Prelude NpModel UtilsModel NpProofs RegModel CircleSpec RegSpec RegProofs Reg2Proofs Reg3Proofs Reg4Proofs Reg5Proofs.

(** ** Projections, with matrices as functions *)
Definition Ap (A : nat -> nat -> R) (m : nat) (v : nat -> R) (i : nat) : R := sumn m (fun j => A i j * v j).
Definition Tu (A : nat -> nat -> R) (n : nat) (u : nat -> R) (j : nat) : R := sumn n (fun i => A i j * u i).
Lemma adj A n m u v : sumn m (fun j => Tu A n u j * v j) = sumn n (fun i => u i * Ap A m v i).
Proof.
  unfold Tu, Ap. rewrite (sumn_ext m _ (fun j => sumn n (fun i => A i j * u i * v j))) by (intros; now rewrite sumn_scal_r).
  rewrite sumn_swap. apply sumn_ext. intros i _. rewrite <- sumn_scal. apply sumn_ext. intros. ring.
Qed.
Lemma Ap_ext A m u v i : (forall j, (j < m)%nat -> u j = v j) -> Ap A m u i = Ap A m v i.
Proof. intros H. apply sumn_ext. intros j Hj. now rewrite H. Qed.
Lemma Tu_ext A n u v i : (forall j, (j < n)%nat -> u j = v j) -> Tu A n u i = Tu A n v i.
Proof. intros H. apply sumn_ext. intros j Hj. now rewrite H. Qed.
Lemma Tu_minus A n u v j : Tu A n (fun i => u i - v i) j = Tu A n u j - Tu A n v j.
Proof. unfold Tu. rewrite <- sumn_minus. apply sumn_ext. intros. ring. Qed.
(** A product of matrices applied to a vector. *)
Lemma Ap_mul A B n m v i : Ap (fun i k => sumn m (fun j => A i j * B j k)) n v i = Ap A m (Ap B n v) i.
Proof.
  unfold Ap. rewrite (sumn_ext n _ (fun k => sumn m (fun j => A i j * B j k * v k))) by (intros; now rewrite sumn_scal_r).
  rewrite sumn_swap. apply sumn_ext. intros j _. rewrite <- sumn_scal. apply sumn_ext. intros. ring.
Qed.
Lemma Tu_Ap A n : forall u j, Tu A n u j = Ap (fun j i => A i j) n u j.
Proof. reflexivity. Qed.
Definition delta (i j : nat) : R := if Nat.eqb i j then 1 else 0.
Lemma Ap_delta n v i : (i < n)%nat -> Ap delta n v i = v i.
Proof. intros Hi. apply (sumn_delta n i v Hi). Qed.

Lemma drop_quad (X W B K : nat -> nat -> R) (n m q : nat) (r : nat -> R) :
  (forall j l, (j < m)%nat -> (l < m)%nat -> Ap (fun j a => sumn n (fun i => X i j * X i a)) m (fun a => B a l) j = delta j l) ->
  let M := fun i k => sumn m (fun l => sumn m (fun j => X i j * B j l) * X k l) in
  let H := fun k k' => sumn n (fun i => sumn n (fun a => W a k * (delta a i - M a i)) * W i k') in
  (forall k l, (k < q)%nat -> (l < q)%nat -> Ap H q (fun a => K a l) k = delta k l) ->
  (forall j, (j < m)%nat -> Tu X n r j = 0) ->
  let N := fun i k => sumn q (fun l => sumn q (fun j => W i j * K j l) * W k l) in
  exists v z, let w := fun i => Ap W q v i - Ap X m z i in
    (forall j, (j < m)%nat -> Tu X n w j = 0) /\ (forall k, (k < q)%nat -> Tu W n (fun i => r i - w i) k = 0) /\
    sumn n (fun i => (r i - w i) ^ 2) = sumn n (fun i => r i ^ 2) - sumn n (fun j => sumn n (fun i => r i * N i j) * r j).
Proof.
  intros HB M H HK Hr N. set (v := Ap K q (Tu W n r)). set (z := Ap B m (Tu X n (Ap W q v))). exists v, z. intros w.
  assert (F2 : forall c j, (j < m)%nat -> Tu X n (Ap X m (Ap B m c)) j = c j).
  { intros c j Hj. rewrite Tu_Ap. rewrite <- (Ap_mul (fun j i => X i j) X m n). rewrite <- (Ap_mul _ B m m). rewrite <- (Ap_delta m c j Hj).
    apply sumn_ext. intros l Hl. f_equal. apply (HB j l Hj Hl). }
  assert (F1 : forall u i, Ap M n u i = Ap X m (Ap B m (Tu X n u)) i).
  { intros u i. unfold M. rewrite (Ap_mul _ (fun l k => X k l) n m). rewrite (Ap_mul X B m m). apply Ap_ext. intros j Hj. apply Ap_ext. intros l Hl. reflexivity. }
  assert (F4 : forall u i, Ap N n u i = Ap W q (Ap K q (Tu W n u)) i).
  { intros u i. unfold N. rewrite (Ap_mul _ (fun l k => W k l) n q). rewrite (Ap_mul W K q q). reflexivity. }
  assert (F5 : forall k, (k < q)%nat -> Ap H q v k = Tu W n r k).
  { intros k Hk. unfold v. rewrite <- (Ap_mul H K q q). rewrite <- (Ap_delta q (Tu W n r) k Hk). apply sumn_ext. intros l Hl. f_equal. apply (HK k l Hk Hl). }
  assert (F3 : forall k, Ap H q v k = Tu W n w k).
  { intros k. unfold H. rewrite (Ap_mul (fun k i => sumn n (fun a => W a k * (delta a i - M a i))) W q n).
    rewrite (Ap_mul (fun k a => W a k) (fun a i => delta a i - M a i) n n). unfold Tu. apply sumn_ext. intros i Hi. f_equal. unfold w, z. rewrite <- F1.
    transitivity (Ap delta n (Ap W q v) i - Ap M n (Ap W q v) i); [|now rewrite Ap_delta by exact Hi].
    unfold Ap at 1 3 5. rewrite <- sumn_minus. apply sumn_ext. intros. ring. }
  assert (G1 : forall j, (j < m)%nat -> Tu X n w j = 0).
  { intros j Hj. unfold w. rewrite Tu_minus. unfold z. rewrite F2 by exact Hj. ring. }
  assert (G2 : forall k, (k < q)%nat -> Tu W n (fun i => r i - w i) k = 0).
  { intros k Hk. rewrite Tu_minus, <- F3, F5 by exact Hk. ring. }
  split; [exact G1|]. split; [exact G2|].
  assert (Z1 : sumn n (fun i => r i * Ap X m z i) = 0).
  { rewrite <- adj. rewrite (sumn_ext _ _ (fun _ => 0)) by (intros j Hj; rewrite Hr by exact Hj; ring). unfold sumn. rewrite Rsum_map_const. ring. }
  assert (Z2 : sumn n (fun i => w i * Ap X m z i) = 0).
  { rewrite <- adj. rewrite (sumn_ext _ _ (fun _ => 0)) by (intros j Hj; rewrite G1 by exact Hj; ring). unfold sumn. rewrite Rsum_map_const. ring. }
  assert (Z3 : sumn n (fun i => (r i - w i) * Ap W q v i) = 0).
  { rewrite <- adj. rewrite (sumn_ext _ _ (fun _ => 0)) by (intros j Hj; rewrite G2 by exact Hj; ring). unfold sumn. rewrite Rsum_map_const. ring. }
  assert (Z4 : sumn n (fun j => sumn n (fun i => r i * N i j) * r j) = sumn n (fun i => r i * Ap W q v i)).
  { rewrite (sumn_ext n _ (fun j => sumn n (fun i => r i * N i j * r j))) by (intros; now rewrite sumn_scal_r).
    rewrite sumn_swap. apply sumn_ext. intros i _. unfold v. rewrite <- F4. unfold Ap. rewrite <- sumn_scal. apply sumn_ext. intros. ring. }
  rewrite Z4.
  (* sum (r-w)^2 = sum r^2 - 2 sum r w + sum w w *)
  assert (E1 : sumn n (fun i => r i * Ap W q v i) = sumn n (fun i => r i * w i)).
  { rewrite (sumn_ext n (fun i => r i * w i) (fun i => r i * Ap W q v i - r i * Ap X m z i)) by (intros; unfold w; ring). rewrite sumn_minus. lra. }
  assert (E2 : sumn n (fun i => w i * Ap W q v i) = sumn n (fun i => w i * w i)).
  { rewrite (sumn_ext n (fun i => w i * w i) (fun i => w i * Ap W q v i - w i * Ap X m z i)) by (intros; unfold w; ring). rewrite sumn_minus. lra. }
  assert (E3 : sumn n (fun i => r i * Ap W q v i) = sumn n (fun i => w i * Ap W q v i)).
  { rewrite (sumn_ext n _ (fun i => r i * Ap W q v i - w i * Ap W q v i)) in Z3 by (intros; ring). rewrite sumn_minus in Z3. lra. }
  rewrite (sumn_ext n (fun i => (r i - w i) ^ 2) (fun i => r i ^ 2 - 2 * (r i * w i) + w i * w i)) by (intros; ring).
  rewrite sumn_plus, sumn_minus, sumn_scal. lra.
Qed.

(** ** Coefficients by predictor and harmonic *)
Lemma labels_nth p o i : (i < p * o)%nat -> nth i (cc_labels p o) (0, 0)%nat = ((i / o)%nat, S (i mod o)).
Proof.
  unfold cc_labels. intros Hi.
  assert (G : forall b i, (i < p * o)%nat -> nth i (flat_map (fun j => map (fun k => (j, k)) (seq 1 o)) (seq b p)) (0, 0)%nat = ((b + i / o)%nat, S (i mod o))).
  { clear. induction p as [|p IH]; intros b i Hi; [lia|]. cbn [seq flat_map]. assert (Ho : (o <> 0)%nat) by (intros ->; lia).
    destruct (Nat.lt_ge_cases i o) as [H|H].
    - rewrite app_nth1 by (rewrite map_length, seq_length; exact H). rewrite (nth_map_d _ _ _ 0%nat) by (rewrite seq_length; exact H). rewrite seq_nth by exact H.
      rewrite Nat.div_small, Nat.mod_small by exact H. f_equal; lia.
    - rewrite app_nth2 by (rewrite map_length, seq_length; exact H). rewrite map_length, seq_length. rewrite IH by nia.
      assert (D : (i / o = 1 + (i - o) / o)%nat) by (rewrite <- (Nat.div_add_l 1 o (i - o) Ho); f_equal; lia).
      assert (D' : (i mod o = (i - o) mod o)%nat) by (rewrite <- (Nat.mod_add (i - o) 1 o Ho); f_equal; lia).
      rewrite D, D'. f_equal. lia. }
  rewrite (G 0%nat i Hi). reflexivity.
Qed.
Definition coef (p o : nat) (c0 : R) (a s : nat -> nat -> R) : list R :=
  c0 :: map (fun jk => a (fst jk) (snd jk)) (cc_labels p o) ++ map (fun jk => s (fst jk) (snd jk)) (cc_labels p o).
Lemma coef_length p o c0 a s : length (coef p o c0 a s) = (1 + 2 * (p * o))%nat.
Proof. unfold coef. cbn [length]. rewrite app_length, !map_length, labels_length. lia. Qed.
Lemma coef_onto p o b : length b = (1 + 2 * (p * o))%nat -> exists c0 a s, b = coef p o c0 a s.
Proof.
  intros Hb. exists (nth 0 b 0), (fun j k => nth (1 + (j * o + (k - 1))) b 0), (fun j k => nth (1 + p * o + (j * o + (k - 1))) b 0).
  apply (vec_eq (1 + 2 * (p * o))); [exact Hb|apply coef_length|]. intros [|i] Hi; [reflexivity|]. unfold coef. cbn [nth].
  assert (Ho : (p * o <> 0)%nat) by lia. assert (Ho' : (o <> 0)%nat) by (intros ->; lia).
  destruct (Nat.lt_ge_cases i (p * o)) as [H|H].
  - rewrite app_nth1 by (rewrite map_length, labels_length; exact H). rewrite (nth_map_d _ _ _ (0, 0)%nat) by (rewrite labels_length; exact H). rewrite (labels_nth p o i H). cbn [fst snd].
    replace (S i) with (1 + (i / o * o + (S (i mod o) - 1)))%nat; [reflexivity|]. pose proof (Nat.div_mod i o Ho'). lia.
  - rewrite app_nth2 by (rewrite map_length, labels_length; exact H). rewrite map_length, labels_length. rewrite (nth_map_d _ _ _ (0, 0)%nat) by (rewrite labels_length; lia).
    rewrite labels_nth by lia. cbn [fst snd]. replace (S i) with (1 + p * o + ((i - p * o) / o * o + (S ((i - p * o) mod o) - 1)))%nat; [reflexivity|].
    pose proof (Nat.div_mod (i - p * o) o Ho'). lia.
Qed.
Definition term (a s : nat -> nat -> R) (x : list R) (jk : nat * nat) : R :=
  a (fst jk) (snd jk) * cos (INR (snd jk) * nth (fst jk) x 0) + s (fst jk) (snd jk) * sin (INR (snd jk) * nth (fst jk) x 0).
Lemma poly_coef p o c0 a s x : trig_poly (cc_labels p o) (coef p o c0 a s) x = c0 + Rsum (map (term a s x) (cc_labels p o)).
Proof.
  rewrite trig_poly_nth. rewrite (sum_nth _ _ (0, 0)%nat). unfold coef at 1. cbn [nth]. f_equal. rewrite labels_length. apply sumn_ext. intros i Hi.
  unfold coef. cbn [plus nth]. rewrite app_nth1 by (rewrite map_length, labels_length; exact Hi). rewrite app_nth2 by (rewrite map_length, labels_length; lia).
  rewrite map_length, labels_length. replace (p * o + i - p * o)%nat with i by lia. rewrite !(nth_map_d _ _ _ (0, 0)%nat) by (rewrite labels_length; exact Hi). reflexivity.
Qed.
Lemma labels_last p o (F : nat * nat -> R) : Rsum (map F (cc_labels p (S o))) = Rsum (map F (cc_labels p o)) + sumn p (fun j => F (j, S o)).
Proof.
  unfold cc_labels, sumn. generalize (seq 0 p). induction l as [|j l IH]; cbn [flat_map map]; [rewrite !Rsum_nil; lra|].
  rewrite !map_app, !Rsum_app, IH, Rsum_cons. replace (seq 1 (S o)) with (seq 1 o ++ [S o])%list by (symmetry; apply (seq_S o 1)).
  rewrite map_app, map_app, Rsum_app. cbn [map]. rewrite Rsum_cons, Rsum_nil. lra.
Qed.
Lemma wrow_inner p o x v : inner (cc_wrow p o x) v = sumn p (fun j => nth j v 0 * cos (INR (S o) * nth j x 0) + nth (p + j) v 0 * sin (INR (S o) * nth j x 0)).
Proof.
  unfold cc_wrow. change (map (fun j => cos (INR (S o) * nth j x 0)) (seq 0 p)) with (vec_of p (fun j => cos (INR (S o) * nth j x 0))).
  change (map (fun j => sin (INR (S o) * nth j x 0)) (seq 0 p)) with (vec_of p (fun j => sin (INR (S o) * nth j x 0))).
  rewrite inner_app, vec_of_length, !inner_vec_of, <- sumn_plus. apply sumn_ext. intros j Hj. rewrite nth_skipn_. ring.
Qed.
Lemma wrow_length p o x : length (cc_wrow p o x) = (2 * p)%nat.
Proof. unfold cc_wrow. rewrite app_length, !map_length, seq_length. lia. Qed.
(** A polynomial of the next order is one of this order and the columns of W. *)
Lemma poly_split p o b : length b = (1 + 2 * (p * S o))%nat -> exists b1 v, length b1 = (1 + 2 * (p * o))%nat /\ length v = (2 * p)%nat /\
  forall x, trig_poly (cc_labels p (S o)) b x = trig_poly (cc_labels p o) b1 x + inner (cc_wrow p o x) v.
Proof.
  intros Hb. destruct (coef_onto p (S o) b Hb) as (c0 & a & s & ->).
  exists (coef p o c0 a s), (vec_of p (fun j => a j (S o)) ++ vec_of p (fun j => s j (S o))). split; [apply coef_length|]. split; [rewrite app_length, !vec_of_length; lia|].
  intros x. rewrite !poly_coef, labels_last, wrow_inner. rewrite <- Rplus_assoc. f_equal. apply sumn_ext. intros j Hj.
  rewrite app_nth1 by (rewrite vec_of_length; exact Hj). rewrite app_nth2 by (rewrite vec_of_length; lia). rewrite vec_of_length. replace (p + j - p)%nat with j by lia.
  rewrite !nth_vec_of by exact Hj. reflexivity.
Qed.
Lemma poly_join p o b1 v : length b1 = (1 + 2 * (p * o))%nat -> length v = (2 * p)%nat -> exists b, length b = (1 + 2 * (p * S o))%nat /\
  (forall x, trig_poly (cc_labels p (S o)) b x = trig_poly (cc_labels p o) b1 x + inner (cc_wrow p o x) v) /\
  ((forall y, In y b -> y = 0) -> (forall y, In y b1 -> y = 0) /\ forall y, In y v -> y = 0).
Proof.
  intros Hb Hv. destruct (coef_onto p o b1 Hb) as (c0 & a & s & ->).
  set (a' := fun j k => if Nat.eqb k (S o) then nth j v 0 else a j k). set (s' := fun j k => if Nat.eqb k (S o) then nth (p + j) v 0 else s j k).
  assert (Hlab : forall jk, In jk (cc_labels p o) -> a' (fst jk) (snd jk) = a (fst jk) (snd jk) /\ s' (fst jk) (snd jk) = s (fst jk) (snd jk)).
  { intros [j k] Hin. apply in_labels in Hin. cbn [fst snd]. unfold a', s'. destruct (Nat.eqb_spec k (S o)); [lia|]. now split. }
  assert (Hcoef : coef p o c0 a' s' = coef p o c0 a s).
  { unfold coef. f_equal. f_equal; apply map_ext_in; intros jk Hin; apply (Hlab jk Hin). }
  exists (coef p (S o) c0 a' s'). split; [apply coef_length|]. split.
  - intros x. rewrite <- Hcoef, !poly_coef, labels_last, wrow_inner. rewrite <- Rplus_assoc. f_equal. apply sumn_ext. intros j Hj. unfold term, a', s'. cbn [fst snd]. rewrite Nat.eqb_refl. reflexivity.
  - intros Hz.
    assert (K : forall j k, In (j, k) (cc_labels p (S o)) -> a' j k = 0 /\ s' j k = 0).
    { intros j k Hin. split; apply Hz; unfold coef; right; apply in_or_app; [left|right]; apply in_map_iff; exists (j, k); now split. }
    split.
    + intros y Hy. rewrite <- Hcoef in Hy. unfold coef in Hy. destruct Hy as [<-|Hy]; [apply Hz; left; reflexivity|].
      assert (Hin' : forall j k, In (j, k) (cc_labels p o) -> In (j, k) (cc_labels p (S o))) by (intros j k; rewrite !in_labels; lia).
      apply in_app_or in Hy. destruct Hy as [Hy|Hy]; apply in_map_iff in Hy; destruct Hy as ([j k] & <- & Hin); apply (K j k (Hin' j k Hin)).
    + intros y Hy. destruct (In_nth _ _ 0 Hy) as (i & Hi & <-). destruct (Nat.lt_ge_cases i p) as [H|H].
      * destruct (K i (S o)) as [K1 _]; [apply in_labels; lia|]. unfold a' in K1. rewrite Nat.eqb_refl in K1. exact K1.
      * destruct (K (i - p)%nat (S o)) as [_ K1]; [apply in_labels; lia|]. unfold s' in K1. rewrite Nat.eqb_refl in K1. replace (p + (i - p))%nat with i in K1 by lia. exact K1.
Qed.
