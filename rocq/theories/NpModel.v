(** numpy / Python primitives on exact reals, read from their documentation. *)
From Verif Require Import Prelude.

(** Floor of a real, as an integer: np.floor. *)
Definition Rfloor (x : R) : Z := Int_part x.

(** Python's and numpy's float [%] (np.mod): result has the sign of the divisor,
    x % m = x - m * floor(x / m).  Division by zero is not modelled: every use
    has m > 0. *)
Definition pymod (x m : R) : R := x - m * IZR (Rfloor (x / m)).

(** np.isclose(a, b, rtol, atol): |a - b| <= atol + rtol * |b| (finite inputs). *)
Definition isclose_tol (rtol atol a b : R) : bool :=
  Rleb (Rabs (a - b)) (atol + rtol * Rabs b).
(** Default tolerances rtol = 1e-5, atol = 1e-8. *)
Definition isclose (a b : R) : bool :=
  isclose_tol (/ 100000) (/ 100000000) a b.
(** np.isclose(a, b, atol = 1e-12) with the default rtol = 1e-5. *)
Definition isclose12 (a b : R) : bool :=
  isclose_tol (/ 100000) (/ 1000000000000) a b.

(** np.arctan2(y, x) for finite arguments (signed zeros are not modelled;
    arctan2(0, 0) = 0). *)
Definition arctan2 (y x : R) : R :=
  if Rltb 0 x then atan (y / x)
  else if Rltb x 0 then
    (if Rleb 0 y then atan (y / x) + PI else atan (y / x) - PI)
  else if Rltb 0 y then PI / 2
  else if Rltb y 0 then - (PI / 2)
  else 0.

(** np.hypot. *)
Definition hypot (x y : R) : R := sqrt (x * x + y * y).

(** Round half to even, the rule of np.round. *)
Definition rint (x : R) : Z :=
  let f := Rfloor x in
  let d := x - IZR f in
  if Rltb d (1/2) then f
  else if Rltb (1/2) d then (f + 1)%Z
  else if Z.even f then f else (f + 1)%Z.
(** np.round(x, 5). *)
Definition round5 (x : R) : R := IZR (rint (x * 100000)) / 100000.

(** np.clip(x, lo, hi). *)
Definition clip (x lo hi : R) : R := Rmin (Rmax x lo) hi.

(** np.sort: insertion sort on reals (np.sort returns the sorted permutation). *)
Fixpoint insert (x : R) (l : list R) : list R :=
  match l with
  | [] => [x]
  | y :: t => if Rleb x y then x :: y :: t else y :: insert x t
  end.
Fixpoint nsort (l : list R) : list R :=
  match l with [] => [] | x :: t => insert x (nsort t) end.

(** np.diff. *)
Fixpoint diff (l : list R) : list R :=
  match l with
  | x :: (y :: _) as t => (y - x) :: diff t
  | _ => []
  end.

(** np.mean; numpy returns NaN (with a warning) on an empty array, so every use
    guards against that. *)
Definition mean (l : list R) : R := Rsum l / INR (length l).

(** np.repeat(x, w) for natural weights. *)
Fixpoint np_repeat {A} (x : list A) (w : list nat) : list A :=
  match x, w with
  | a :: x', k :: w' => repeat a k ++ np_repeat x' w'
  | _, _ => []
  end.

(** Element-wise product of two arrays of equal length. *)
Definition map2 {A B C} (f : A -> B -> C) (l : list A) (m : list B) : list C :=
  map (fun p => f (fst p) (snd p)) (combine l m).
Definition vmul (l m : list R) : list R := map2 Rmult l m.

(** Index of the first minimum (np.argmin) of a list of reals, with its value. *)
Fixpoint argmin_from (i : nat) (best : nat) (bv : R) (l : list R) : nat :=
  match l with
  | [] => best
  | x :: t => if Rltb x bv then argmin_from (S i) i x t else argmin_from (S i) best bv t
  end.
Definition argmin (l : list R) : nat :=
  match l with [] => 0%nat | x :: t => argmin_from 1 0 x t end.
(** np.argmax. *)
Definition argmax (l : list R) : nat := argmin (map Ropp l).
