(** What users of the regression classes rely on.  Nothing here refers to the model. *)
From Verif Require Import Prelude CircleSpec IntSpec VonSpec.
From Coq Require Import Ascii.

(** Inner product of two vectors. *)
Fixpoint inner (u v : list R) : R :=
  match u, v with a :: u', b :: v' => a * b + inner u' v' | _, _ => 0 end.
(** Entry of a matrix given by its rows. *)
Definition entry (A : list (list R)) (i j : nat) : R := nth j (nth i A []) 0.
Definition shaped (n m : nat) (A : list (list R)) : Prop := length A = n /\ forall r, In r A -> length r = m.

(** [y] is a non-zero vector that the matrix sends to 0. *)
Definition null_vector (n : nat) (A : list (list R)) (y : list R) : Prop :=
  length y = n /\ (exists v, In v y /\ v <> 0) /\ forall r, In r A -> inner r y = 0.
(** numpy.linalg.solve on n equations in n unknowns: a solution, or LinAlgError for a singular
    matrix. *)
Definition right_solve (solve : list (list R) -> list R -> option (list R)) : Prop :=
  forall n A b, shaped n n A -> length b = n ->
    match solve A b with
    | Some x => length x = n /\ forall i, (i < n)%nat -> inner (nth i A []) x = nth i b 0
    | None => exists y, null_vector n A y
    end.
(** numpy.linalg.inv. *)
Definition right_inv (inv : list (list R) -> option (list (list R))) : Prop :=
  forall n A, shaped n n A ->
    match inv A with
    | Some B => shaped n n B /\ forall i j, (i < n)%nat -> (j < n)%nat ->
                  Rsum (map (fun k => entry A i k * entry B k j) (seq 0 n)) = if Nat.eqb i j then 1 else 0
    | None => exists y, null_vector n A y
    end.
(** Sum of squared differences, and least squares (scipy.linalg.lstsq). *)
Definition sqdist (u v : list R) : R := Rsum (map (fun p => (fst p - snd p) ^ 2) (combine u v)).
Definition right_lstsq (lstsq : list (list R) -> list R -> list R) : Prop :=
  forall n m A y, (0 < n)%nat -> shaped n m A -> length y = n ->
    length (lstsq A y) = m /\
    forall b, length b = m -> sqdist y (map (fun r => inner r (lstsq A y)) A) <= sqdist y (map (fun r => inner r b) A).

(** The log-likelihood of independent von Mises directions: of each observation its direction,
    the location and the concentration of its density. *)
Definition vm_loglik (iv : nat -> R -> R) (l : list (R * R * R)) : R :=
  Rsum (map (fun o => let '(t, m, k) := o in ln (exp (k * cos (t - m)) / (2 * PI * iv 0%nat k))) l).

(** The trigonometric polynomial at the predictors [x] whose coefficients [b] are listed as an
    intercept, the cosine coefficients and the sine coefficients; [lab] tells the predictor and
    the harmonic of each. *)
Definition trig_poly (lab : list (nat * nat)) (b x : list R) : R :=
  nth 0 b 0 + Rsum (map (fun i => let '(j, k) := nth i lab (0, 0)%nat in
    nth (1 + i) b 0 * cos (INR k * nth j x 0) + nth (1 + length lab + i) b 0 * sin (INR k * nth j x 0)) (seq 0 (length lab))).
(** Residual sum of squares of a fit of [f] to the responses [g] of the observations. *)
Definition trig_rss (lab : list (nat * nat)) (g : R -> R) (l : list (R * list R)) (b : list R) : R :=
  Rsum (map (fun o => (g (fst o) - trig_poly lab b (snd o)) ^ 2) l).
(** Only the zero coefficients give a polynomial that vanishes at every observation. *)
Definition independent (lab : list (nat * nat)) (rows : list (list R)) : Prop :=
  forall b, length b = (1 + 2 * length lab)%nat -> (forall x, In x rows -> trig_poly lab b x = 0) -> forall v, In v b -> v = 0.
(** The chi-square distribution function with an even number of degrees of freedom. *)
Definition chi2_even (x : R) (df : nat) : R :=
  1 - exp (- x / 2) * Rsum (map (fun k => (x / 2) ^ k / INR (fact k)) (seq 0 (Nat.div2 df))).
(** A name that needs no quoting in a formula, and the text of the formula y ~ a + b. *)
Definition plain (s : string) : Prop :=
  s <> EmptyString /\ forall a, In a (list_ascii_of_string s) -> a <> "~"%char /\ a <> "+"%char /\ nat_of_ascii a <> 32%nat /\ (nat_of_ascii a < 9 \/ 13 < nat_of_ascii a)%nat.
Definition formula_text (y : string) (xs : list string) : string := append y (append " ~ " (String.concat " + " xs)).
(** The column of that name in a table, the first if there are several. *)
Definition column_is (data : list (string * list fl)) (name : string) (c : list fl) : Prop :=
  exists pre post, data = pre ++ (name, c) :: post /\ ~ In name (map fst pre).
