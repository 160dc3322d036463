(** Common vocabulary of the model: Python results, exceptions and floats,
    boolean comparisons on reals, finite sums. *)
From Coq Require Export String.
From Coq Require Export Reals Lra Lia ZArith List Bool Permutation.
Export ListNotations.
Open Scope R_scope.

(** Exceptions that the modelled functions raise.  The message text is dropped. *)
Inductive exn : Type :=
| ValueError | TypeError | IndexError | ZeroDivisionError | RuntimeError
| AssertionError | UnboundLocalError | KeyError.

(** A Python call either returns a value or raises. *)
Inductive res (A : Type) : Type :=
| Ok : A -> res A
| Err : exn -> res A.
Arguments Ok {A} _.
Arguments Err {A} _.

Definition bind {A B} (x : res A) (f : A -> res B) : res B :=
  match x with Ok a => f a | Err e => Err e end.
Notation "'do' x <- e ; f" := (bind e (fun x => f))
  (at level 200, x pattern, e at level 100, f at level 200).

(** Float values that the code returns: a finite number (idealised as an exact
    real), NaN, or an infinity. *)
Inductive fl : Type :=
| Fin : R -> fl
| NaN : fl
| PInf : fl
| NInf : fl.

(** Boolean comparisons. *)
Definition Rltb (x y : R) : bool := if Rlt_dec x y then true else false.
Definition Rleb (x y : R) : bool := if Rle_dec x y then true else false.
Definition Reqb (x y : R) : bool := if Req_EM_T x y then true else false.

Lemma Rltb_true x y : Rltb x y = true <-> x < y.
Proof. unfold Rltb; destruct (Rlt_dec x y); split; intros; auto; discriminate. Qed.
Lemma Rltb_false x y : Rltb x y = false <-> y <= x.
Proof. unfold Rltb; destruct (Rlt_dec x y); split; intros; auto; try discriminate; lra. Qed.
Lemma Rleb_true x y : Rleb x y = true <-> x <= y.
Proof. unfold Rleb; destruct (Rle_dec x y); split; intros; auto; discriminate. Qed.
Lemma Rleb_false x y : Rleb x y = false <-> y < x.
Proof. unfold Rleb; destruct (Rle_dec x y); split; intros; auto; try discriminate; lra. Qed.
Lemma Reqb_true x y : Reqb x y = true <-> x = y.
Proof. unfold Reqb; destruct (Req_EM_T x y); split; intros; auto; try discriminate; lra. Qed.
Lemma Reqb_false x y : Reqb x y = false <-> x <> y.
Proof. unfold Reqb; destruct (Req_EM_T x y); split; intros; auto; try discriminate; lra. Qed.

Lemma Rltb_spec x y : reflect (x < y) (Rltb x y).
Proof. unfold Rltb; destruct (Rlt_dec x y); constructor; auto. Qed.
Lemma Rleb_spec x y : reflect (x <= y) (Rleb x y).
Proof. unfold Rleb; destruct (Rle_dec x y); constructor; auto. Qed.
Lemma Reqb_spec x y : reflect (x = y) (Reqb x y).
Proof. unfold Reqb; destruct (Req_EM_T x y); constructor; auto. Qed.

(** Case split on one boolean comparison of the goal or a hypothesis. *)
Ltac rcase x y :=
  first [ destruct (Rltb_spec x y) | destruct (Rleb_spec x y) | destruct (Reqb_spec x y) ].

(** Sums (np.sum of a 1-D array). *)
Definition Rsum (l : list R) : R := fold_right Rplus 0 l.

Lemma Rsum_nil : Rsum [] = 0.
Proof. reflexivity. Qed.
Lemma Rsum_cons x l : Rsum (x :: l) = x + Rsum l.
Proof. reflexivity. Qed.
Lemma Rsum_app l1 l2 : Rsum (l1 ++ l2) = Rsum l1 + Rsum l2.
Proof. induction l1 as [|x l IH]; simpl; [lra|rewrite IH; lra]. Qed.
Lemma Rsum_perm l1 l2 : Permutation l1 l2 -> Rsum l1 = Rsum l2.
Proof. induction 1; simpl; lra. Qed.
Lemma Rsum_map_plus {A} (f g : A -> R) l :
  Rsum (map (fun x => f x + g x) l) = Rsum (map f l) + Rsum (map g l).
Proof. induction l as [|x l IH]; simpl; [lra|rewrite IH; lra]. Qed.
Lemma Rsum_map_minus {A} (f g : A -> R) l :
  Rsum (map (fun x => f x - g x) l) = Rsum (map f l) - Rsum (map g l).
Proof. induction l as [|x l IH]; simpl; [lra|rewrite IH; lra]. Qed.
Lemma Rsum_map_scal {A} c (f : A -> R) l :
  Rsum (map (fun x => c * f x) l) = c * Rsum (map f l).
Proof. induction l as [|x l IH]; simpl; [lra|rewrite IH; lra]. Qed.
Lemma Rsum_map_scal_r {A} c (f : A -> R) l :
  Rsum (map (fun x => f x * c) l) = Rsum (map f l) * c.
Proof. induction l as [|x l IH]; simpl; [lra|rewrite IH; lra]. Qed.
Lemma Rsum_map_div {A} c (f : A -> R) l :
  Rsum (map (fun x => f x / c) l) = Rsum (map f l) / c.
Proof. unfold Rdiv. apply Rsum_map_scal_r. Qed.
Lemma Rsum_map_opp {A} (f : A -> R) l :
  Rsum (map (fun x => - f x) l) = - Rsum (map f l).
Proof. induction l as [|x l IH]; simpl; [lra|rewrite IH; lra]. Qed.
Lemma Rsum_map_const {A} c (l : list A) :
  Rsum (map (fun _ => c) l) = c * INR (length l).
Proof.
  induction l as [|x l IH]; [simpl; lra|].
  cbn [map length]. rewrite Rsum_cons, IH, S_INR. lra.
Qed.
Lemma Rsum_map_ext {A} (f g : A -> R) l :
  (forall x, In x l -> f x = g x) -> Rsum (map f l) = Rsum (map g l).
Proof. intros H. f_equal. apply map_ext_in. exact H. Qed.
Lemma Rsum_map_le {A} (f g : A -> R) l :
  (forall x, In x l -> f x <= g x) -> Rsum (map f l) <= Rsum (map g l).
Proof.
  induction l as [|x l IH]; simpl; intros H; [lra|].
  assert (f x <= g x) by (apply H; auto).
  assert (Rsum (map f l) <= Rsum (map g l)) by (apply IH; intros; apply H; auto). lra.
Qed.
Lemma Rsum_nonneg l : (forall x, In x l -> 0 <= x) -> 0 <= Rsum l.
Proof.
  induction l as [|x l IH]; simpl; intros H; [lra|].
  assert (0 <= x) by (apply H; auto).
  assert (0 <= Rsum l) by (apply IH; intros; apply H; auto). lra.
Qed.
Lemma Rsum_map_nonneg {A} (f : A -> R) l :
  (forall x, In x l -> 0 <= f x) -> 0 <= Rsum (map f l).
Proof.
  intros H. apply Rsum_nonneg. intros y Hy. apply in_map_iff in Hy.
  destruct Hy as (x & <- & Hx). auto.
Qed.
Lemma Rsum_map_0 {A} (f : A -> R) l :
  (forall x, In x l -> 0 <= f x) -> Rsum (map f l) = 0 ->
  forall x, In x l -> f x = 0.
Proof.
  induction l as [|y l IH]; simpl; intros H H0 x Hx; [tauto|].
  assert (0 <= f y) by (apply H; auto).
  assert (0 <= Rsum (map f l)) by (apply Rsum_map_nonneg; intros; apply H; auto).
  destruct Hx as [->|Hx]; [lra|]. apply IH; auto. lra.
Qed.

(** Minimum and maximum of a non-empty list given as head and tail. *)
Definition Rlmax (x : R) (l : list R) : R := fold_left Rmax l x.
Definition Rlmin (x : R) (l : list R) : R := fold_left Rmin l x.

Lemma Rlmax_ge x l : x <= Rlmax x l /\ forall y, In y l -> y <= Rlmax x l.
Proof.
  revert x; induction l as [|z l IH]; intros x; cbn.
  - split; [lra|tauto].
  - destruct (IH (Rmax x z)) as [H1 H2]. fold (Rlmax (Rmax x z) l) in *.
    pose proof (Rmax_l x z); pose proof (Rmax_r x z).
    split; [lra|]. intros y [->|Hy]; [lra|auto].
Qed.
Lemma Rlmax_in x l : In (Rlmax x l) (x :: l).
Proof.
  revert x; induction l as [|z l IH]; intros x; [left; reflexivity|].
  change (Rlmax x (z :: l)) with (Rlmax (Rmax x z) l).
  destruct (IH (Rmax x z)) as [H|H]; [|right; right; exact H].
  rewrite <- H. unfold Rmax. destruct (Rle_dec x z); simpl; auto.
Qed.
Lemma Rlmin_le x l : Rlmin x l <= x /\ forall y, In y l -> Rlmin x l <= y.
Proof.
  revert x; induction l as [|z l IH]; intros x; cbn.
  - split; [lra|tauto].
  - destruct (IH (Rmin x z)) as [H1 H2]. fold (Rlmin (Rmin x z) l) in *.
    pose proof (Rmin_l x z); pose proof (Rmin_r x z).
    split; [lra|]. intros y [->|Hy]; [lra|auto].
Qed.
Lemma Rlmin_in x l : In (Rlmin x l) (x :: l).
Proof.
  revert x; induction l as [|z l IH]; intros x; [left; reflexivity|].
  change (Rlmin x (z :: l)) with (Rlmin (Rmin x z) l).
  destruct (IH (Rmin x z)) as [H|H]; [|right; right; exact H].
  rewrite <- H. unfold Rmin. destruct (Rle_dec x z); simpl; auto.
Qed.

(** Small numeric facts used everywhere. *)
Lemma PI_pos : 0 < PI.
Proof. exact PI_RGT_0. Qed.
Lemma PI2_pos : 0 < 2 * PI.
Proof. pose proof PI_pos; lra. Qed.
