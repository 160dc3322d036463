(** Model of pycircstat2/regression.py.  External routines are arguments: [i0], [i1]
    (scipy.special), [solve] and [inv] (numpy.linalg; None is LinAlgError), [pinv],
    [lstsq] (scipy.linalg, the coefficients only), [chi2] (chi2.cdf x df).  Printed text
    (summary, verbose) is not modelled. *)
From Verif Require Import Prelude NpModel UtilsModel.
From Coq Require Import Ascii.
Local Open Scope string_scope.
Open Scope R_scope.

(** ** Vectors, and matrices as lists of rows *)
Definition vec := list R.
Definition mat := list (list R).
Definition dot (u v : vec) : R := Rsum (vmul u v).
Definition mv (A : mat) (x : vec) : vec := map (fun r => dot r x) A.
Definition vec_of (p : nat) (f : nat -> R) : vec := map f (seq 0 p).
Definition mat_of (p q : nat) (f : nat -> nat -> R) : mat := map (fun j => vec_of q (f j)) (seq 0 p).
Definition ent (A : mat) (i j : nat) : R := nth j (nth i A []) 0.
Definition vadd (u v : vec) : vec := map2 Rplus u v.
Definition vsub (u v : vec) : vec := map2 Rminus u v.
(** A @ B, A.T, A - B and np.eye, with the sizes given. *)
Definition mmul (n q m : nat) (A B : mat) : mat := mat_of n m (fun i j => Rsum (vec_of q (fun k => ent A i k * ent B k j))).
Definition tr (n m : nat) (A : mat) : mat := mat_of m n (fun i j => ent A j i).
Definition msub (n m : nat) (A B : mat) : mat := mat_of n m (fun i j => ent A i j - ent B i j).
Definition eye (n : nat) : mat := mat_of n n (fun i j => if Nat.eqb i j then 1 else 0).

(** regression.py:14-18 [_safe_solve], 21-25 [_safe_inverse]. *)
Definition safe_solve (solve : mat -> vec -> option vec) (pinv : mat -> mat) (A : mat) (b : vec) : vec :=
  match solve A b with Some x => x | None => mv (pinv A) b end.
Definition safe_inverse (inv : mat -> option mat) (pinv : mat -> mat) (A : mat) : mat :=
  match inv A with Some B => B | None => pinv A end.

(** ** Arguments *)
(** An array argument: 0-d, 1-d, or 2-d with its number of columns and its rows. *)
Inductive xarg := X0 (x : fl) | X1 (l : list fl) | X2 (p : nat) (rows : list (list fl)).
(** np.all(np.isfinite(.)): the numbers, or None. *)
Fixpoint finite (l : list fl) : option vec :=
  match l with
  | [] => Some []
  | Fin x :: t => match finite t with Some v => Some (x :: v) | None => None end
  | _ :: _ => None
  end.
Fixpoint finite_rows (l : list (list fl)) : option mat :=
  match l with
  | [] => Some []
  | r :: t => match finite r, finite_rows t with Some v, Some m => Some (v :: m) | _, _ => None end
  end.
(** A DataFrame: named columns. *)
Definition frame := list (string * list fl).
Fixpoint column (d : frame) (name : string) : res (list fl) :=
  match d with
  | [] => Err KeyError
  | (n, c) :: t => if String.eqb n name then Ok c else column t name
  end.
Fixpoint columns (d : frame) (names : list string) : res (list (list fl)) :=
  match names with
  | [] => Ok []
  | n :: t => do c <- column d n; do cs <- columns d t; Ok (c :: cs)
  end.
(** The rows of a 2-d array given by its columns. *)
Definition rows_of (n : nat) (cols : list (list fl)) : list (list fl) :=
  map (fun i => map (fun c => nth i c NaN) cols) (seq 0 n).
(** str.split with a one-character separator, str.strip (blanks, tabs and line ends). *)
Fixpoint split_on (c : ascii) (s : string) : list string :=
  match s with
  | EmptyString => [EmptyString]
  | String a t =>
      if Ascii.eqb a c then EmptyString :: split_on c t
      else match split_on c t with h :: r => String a h :: r | [] => [String a EmptyString] end
  end.
Definition is_space (a : ascii) : bool :=
  let k := nat_of_ascii a in Nat.eqb k 32 || (Nat.leb 9 k && Nat.leb k 13).
Fixpoint lstrip (s : string) : string :=
  match s with String a t => if is_space a then lstrip t else s | EmptyString => EmptyString end.
Fixpoint rstrip (s : string) : string :=
  match s with
  | EmptyString => EmptyString
  | String a t => match rstrip t with
                  | EmptyString => if is_space a then EmptyString else String a EmptyString
                  | t' => String a t'
                  end
  end.
Definition strip (s : string) : string := rstrip (lstrip s).
(** The names in "y ~ a + b" (178-179, 183 and 722-724); unpacking another number of parts is
    a ValueError. *)
Definition formula_names (formula : string) : res (string * list string) :=
  match split_on "~"%char formula with
  | [t; xs] => Ok (strip t, map strip (split_on "+"%char xs))
  | _ => Err ValueError
  end.
Definition is_null (x : fl) : bool := match x with NaN => true | _ => false end.

(** ** CLRegression *)
(** An observation: its direction and its row of predictors. *)
Definition obs := (R * vec)%type.

(** regression.py:175-188 [_parse_formula]. *)
Definition cl_parse (formula : string) (data : frame) : res (list fl * xarg * list string) :=
  do nm <- formula_names formula;
  do theta <- column data (fst nm);
  if existsb is_null theta then Err ValueError
  else
    do cols <- columns data (snd nm);
    if existsb (existsb is_null) cols then Err ValueError
    else Ok (theta, X2 (List.length (snd nm)) (rows_of (List.length theta) cols), snd nm).

(** regression.py:156-173 [_prepare_design]: the number of predictors and the observations. *)
Definition cl_prepare (theta : list fl) (X : xarg) : res (nat * list obs) :=
  match theta with
  | [] => Err ValueError
  | _ =>
      match finite theta with
      | None => Err ValueError
      | Some th =>
          match X with
          | X0 _ => Err ValueError
          | X1 l =>
              if negb (Nat.eqb (List.length l) (List.length th)) then Err ValueError
              else match finite l with
                   | None => Err ValueError
                   | Some v => Ok (1%nat, combine th (map (fun x => [x]) v))
                   end
          | X2 p rows =>
              if negb (forallb (fun r => Nat.eqb (List.length r) p) rows) then Err ValueError
              else if negb (Nat.eqb (List.length rows) (List.length th)) then Err ValueError
              else match finite_rows rows with
                   | None => Err ValueError
                   | Some m => Ok (p, combine th m)
                   end
          end
      end
  end.
(** regression.py:145-154 [_coerce_vector]. *)
Definition coerce_vector (v : option (list fl)) (p : nat) : res vec :=
  match v with
  | None => Ok (repeat 0 p)
  | Some l => if negb (Nat.eqb (List.length l) p) then Err ValueError
              else match finite l with Some v => Ok v | None => Err ValueError end
  end.

(** beta, alpha and gamma of an iteration (210, 313). *)
Record par := { p_beta : vec; p_alpha : R; p_gamma : vec }.
(** The scalar concentration of the mean model, the concentrations of the others. *)
Inductive conc := One (k : R) | Each (l : vec).
(** One iteration: the next parameters with mu, kappa and the log-likelihood at the present
    ones; an exception; or an infinite concentration (A1inv(1) = 1 / 0), after which beta and
    the log-likelihood of every iteration are NaN. *)
Inductive step := Step (new : par) (mu : R) (kappa : conc) (ll : R) | Raise (e : exn) | Lost.

(** G.T @ (w[:, None] * G) and G.T @ u for the rows [g o]. *)
Definition gram (p : nat) (w : obs -> R) (g : obs -> vec) (l : list obs) : mat :=
  mat_of p p (fun j k => Rsum (map (fun o => w o * (nth j (g o) 0 * nth k (g o) 0)) l)).
Definition tmul (p : nat) (g : obs -> vec) (u : obs -> R) (l : list obs) : vec :=
  vec_of p (fun j => Rsum (map (fun o => nth j (g o) 0 * u o) l)).
(** c * A, and A + 1e-8 * np.eye(p). *)
Definition mscale (c : R) (A : mat) : mat := map (map (Rmult c)) A.
Definition ridge (p : nat) (A : mat) : mat :=
  mat_of p p (fun j k => ent A j k + (if Nat.eqb j k then / 100000000 else 0)).

(** The rows of G (225-226, 276-277) and the deviations theta - 2 arctan(X beta) (217, 269). *)
Definition grow (beta : vec) (o : obs) : vec := map (fun x => 2 * x / (1 + dot (snd o) beta ^ 2)) (snd o).
Definition rdev (beta : vec) (o : obs) : R := fst o - 2 * atan (dot (snd o) beta).
(** The rows of X1 (209). *)
Definition x1 (o : obs) : vec := 1 :: snd o.
(** regression.py:190-191 [_A1] (= utils.A1), 201-203 [_A1_prime]; kappa <> 0. *)
Definition A1 (i0 i1 : R -> R) (k : R) : R := i1 k / i0 k.
Definition A1p (i0 i1 : R -> R) (k : R) : R := 1 - A1 i0 i1 k / k - A1 i0 i1 k ^ 2.

(** regression.py:215-238. *)
Definition mean_step (i0 i1 : R -> R) (solve : mat -> vec -> option vec) (pinv : mat -> mat)
    (p : nat) (l : list obs) (q : par) : step :=
  let beta := p_beta q in
  let S := mean (map (fun o => sin (rdev beta o)) l) in
  let C := mean (map (fun o => cos (rdev beta o)) l) in
  let r := hypot S C in
  if Reqb r 1 then Lost
  else
    let kappa := A1inv r in
    let mu := arctan2 S C in
    let weight := kappa * A1 i0 i1 kappa in
    let XtX := gram p (fun _ => 1) (grow beta) l in
    let rhs := vadd (tmul p (grow beta) (fun o => kappa * sin (rdev beta o - mu)) l) (mv (mscale weight XtX) beta) in
    let beta_new := safe_solve solve pinv (ridge p (mscale weight XtX)) rhs in
    Step {| p_beta := beta_new; p_alpha := p_alpha q; p_gamma := p_gamma q |} mu (One kappa)
         (- INR (List.length l) * ln (i0 kappa) + kappa * Rsum (map (fun o => cos (rdev beta o - mu)) l)).

(** 242, 268: the concentration of an observation. *)
Definition kap (q : par) (o : obs) : R := exp (p_alpha q + dot (snd o) (p_gamma q)).
(** regression.py:248-259 and 286-297: the next alpha and gamma, from the deviations [d]; None
    is the ValueError. *)
Definition conc_update (i0 i1 : R -> R) (solve : mat -> vec -> option vec) (pinv : mat -> mat)
    (p : nat) (l : list obs) (q : par) (d : obs -> R) : option (R * vec) :=
  if existsb (fun o => isclose (A1p i0 i1 (kap q o)) 0) l then None
  else
    let y o := (cos (d o) - A1 i0 i1 (kap q o)) / (A1p i0 i1 (kap q o) * kap q o) in
    let w o := kap q o ^ 2 * A1p i0 i1 (kap q o) in
    let update := safe_solve solve pinv (ridge (S p) (gram (S p) w x1 l)) (tmul (S p) x1 (fun o => w o * y o) l) in
    Some (p_alpha q + nth 0 update 0, vadd (p_gamma q) (tl update)).
(** 262-264, 300-302. *)
Definition conc_ll (i0 : R -> R) (l : list obs) (q : par) (d : obs -> R) : R :=
  - Rsum (map (fun o => ln (i0 (kap q o))) l) + Rsum (map (fun o => kap q o * cos (d o)) l).

(** regression.py:240-264. *)
Definition kappa_step (i0 i1 : R -> R) (solve : mat -> vec -> option vec) (pinv : mat -> mat)
    (p : nat) (l : list obs) (q : par) : step :=
  let S := Rsum (map (fun o => kap q o * sin (fst o)) l) in
  let C := Rsum (map (fun o => kap q o * cos (fst o)) l) in
  let mu := arctan2 S C in
  match conc_update i0 i1 solve pinv p l q (fun o => fst o - mu) with
  | None => Raise ValueError
  | Some (alpha, gamma) =>
      Step {| p_beta := p_beta q; p_alpha := alpha; p_gamma := gamma |} mu (Each (map (kap q) l))
           (conc_ll i0 l q (fun o => fst o - mu))
  end.

(** regression.py:266-302.  The right-hand side of beta is built from theta - mu (273, 280). *)
Definition mixed_step (i0 i1 : R -> R) (solve : mat -> vec -> option vec) (pinv : mat -> mat)
    (p : nat) (l : list obs) (q : par) : step :=
  let beta := p_beta q in
  let S := Rsum (map (fun o => kap q o * sin (rdev beta o)) l) in
  let C := Rsum (map (fun o => kap q o * cos (rdev beta o)) l) in
  let mu := arctan2 S C in
  let w o := kap q o * A1 i0 i1 (kap q o) in
  let beta_new := safe_solve solve pinv (ridge p (gram p w (grow beta) l))
                             (tmul p (grow beta) (fun o => w o * sin (fst o - mu)) l) in
  match conc_update i0 i1 solve pinv p l q (fun o => rdev beta o - mu) with
  | None => Raise ValueError
  | Some (alpha, gamma) =>
      Step {| p_beta := beta_new; p_alpha := alpha; p_gamma := gamma |} mu (Each (map (kap q) l))
           (conc_ll i0 l q (fun o => rdev beta o - mu))
  end.

Inductive cl_type := Mean | Kappa | Mixed.
Definition cl_step (m : cl_type) :=
  match m with Mean => mean_step | Kappa => kappa_step | Mixed => mixed_step end.

(** The estimates of the result (316-323). *)
Record fit := { f_par : par; f_mu : R; f_kappa : conc; f_ll : R }.
(** NanFit: beta and log_likelihood are NaN (mu and kappa are not tracked). *)
Inductive fitted := Fitted (f : fit) | NanFit.

(** regression.py:211-323: the iterations; [old] is the previous log-likelihood (None is
    -inf) and [last] the values left by the previous iteration (None: unbound). *)
Fixpoint cl_loop (st : par -> step) (tol : R) (fuel : nat) (q : par) (old : option R)
    (last : option (R * conc * R)) : res fitted :=
  match fuel with
  | O => match last with
         | None => Err UnboundLocalError
         | Some (mu, k, ll) => Ok (Fitted {| f_par := q; f_mu := mu; f_kappa := k; f_ll := ll |})
         end
  | S n =>
      match st q with
      | Raise e => Err e
      | Lost => Ok NanFit
      | Step new mu k ll =>
          if match old with None => false | Some o => Rltb (Rabs (ll - o)) tol end
          then Ok (Fitted {| f_par := q; f_mu := mu; f_kappa := k; f_ll := ll |})
          else cl_loop st tol n new (Some ll) (Some (mu, k, ll))
      end
  end.

(** np.sqrt. *)
Definition fsqrt (x : R) : fl := if Rltb x 0 then NaN else Fin (sqrt x).
Definition diag (from to : nat) (A : mat) : list fl := map (fun j => fsqrt (ent A j j)) (seq from to).
(** regression.py:331-428 [_compute_standard_errors]: se_beta, (se_alpha, se_gamma), se_mu,
    se_kappa.  At kappa = 0 the mean model divides 0 by 0 (356). *)
Record ses := { se_beta : option (list fl); se_ag : option (fl * list fl); se_mu : fl; se_kappa : list fl }.
Definition small : R := / 1000000000000.
Definition se_ag_of (i0 i1 : R -> R) (inv : mat -> option mat) (pinv : mat -> mat) (p : nat) (l : list obs) (f : fit) (k : vec) : fl * list fl :=
  let w (ok : obs * R) := exp (dot (x1 (fst ok)) (p_alpha (f_par f) :: p_gamma (f_par f))) ^ 2 * A1p i0 i1 (snd ok) in
  let XtWX := mat_of (S p) (S p) (fun a b => Rsum (map (fun ok => nth a (x1 (fst ok)) 0 * (w ok * nth b (x1 (fst ok)) 0)) (combine l k))) in
  let cov := safe_inverse inv pinv (ridge (S p) XtWX) in
  (fsqrt (ent cov 0 0), diag 1 p cov).
Definition standard_errors (i0 i1 : R -> R) (inv : mat -> option mat) (pinv : mat -> mat) (m : cl_type)
    (p : nat) (l : list obs) (f : fit) : ses :=
  let beta := p_beta (f_par f) in
  let n := INR (List.length l) in
  match m, f_kappa f with
  | Mean, One k =>
      let weight := k * A1 i0 i1 k in
      let cov := safe_inverse inv pinv (ridge p (mscale weight (gram p (fun _ => 1) (grow beta) l))) in
      {| se_beta := Some (diag 0 p cov); se_ag := None;
         se_mu := Fin (1 / sqrt (Rmax ((n - INR p) * k * A1 i0 i1 k) small));
         se_kappa := [ if Reqb k 0 then NaN
                       else Fin (sqrt (1 / Rmax (n * (1 - A1 i0 i1 k ^ 2 - A1 i0 i1 k / k)) small)) ] |}
  | Kappa, Each k =>
      {| se_beta := None; se_ag := Some (se_ag_of i0 i1 inv pinv p l f k);
         se_mu := Fin (1 / sqrt (Rmax (Rsum (map (fun x => x * A1 i0 i1 x) k) - 1 / 2) small));
         se_kappa := map (fun x => Fin (sqrt (1 / Rmax (n * A1p i0 i1 x) small))) k |}
  | Mixed, Each k =>
      let G := mat_of p p (fun a b => Rsum (map (fun ok => nth a (grow beta (fst ok)) 0 * ((snd ok * A1 i0 i1 (snd ok)) * nth b (grow beta (fst ok)) 0)) (combine l k))) in
      let cov := safe_inverse inv pinv (ridge p G) in
      {| se_beta := Some (diag 0 p cov); se_ag := Some (se_ag_of i0 i1 inv pinv p l f k);
         se_mu := Fin (1 / sqrt (Rmax (Rsum (map (fun x => x * A1 i0 i1 x) k) - 1 / 2) small));
         se_kappa := map (fun x => Fin (sqrt (1 / Rmax (n * (1 - A1 i0 i1 x ^ 2 - A1 i0 i1 x / x)) small))) k |}
  | _, _ => {| se_beta := None; se_ag := None; se_mu := NaN; se_kappa := [] |}
  end.

(** A fitted CLRegression object. *)
Record clreg := { cl_p : nat; cl_obs : list obs; cl_names : list string; cl_mt : cl_type; cl_fit : fitted }.
Definition type_of (s : string) : option cl_type :=
  if String.eqb s "mean" then Some Mean else if String.eqb s "kappa" then Some Kappa
  else if String.eqb s "mixed" then Some Mixed else None.
(** The digits of a natural number, for the names f"x{i}". *)
Definition digit (n : nat) : string := String (ascii_of_nat (48 + n)) EmptyString.
Fixpoint show_nat (fuel n : nat) : string :=
  match fuel with
  | O => EmptyString
  | S k => if Nat.ltb n 10 then digit n else show_nat k (n / 10) ++ digit (n mod 10)
  end.
Definition xname (i : nat) : string := "x" ++ show_nat (S i) i.
(** regression.py:98-143 [__init__]; max_iter below 1 means no iteration.  tol is finite. *)
Definition cl_source (formula : option string) (data : option frame) (theta : option (list fl)) (X : option xarg)
    : res (list fl * xarg * option (list string)) :=
  let arrays := match theta, X with Some t, Some x => Ok (t, x, None) | _, _ => Err ValueError end in
  match formula, data with
  | Some (String a s), Some d =>
      do r <- cl_parse (String a s) d;
      Ok (fst (fst r), snd (fst r), Some (snd r))
  | _, _ => arrays
  end.
Definition CLRegression (i0 i1 : R -> R) (solve : mat -> vec -> option vec) (pinv : mat -> mat)
    (formula : option string) (data : option frame) (theta : option (list fl)) (X : option xarg)
    (model_type : string) (beta0 : option (list fl)) (alpha0 : option R) (gamma0 : option (list fl))
    (tol : R) (max_iter : nat) : res clreg :=
  do src <- cl_source formula data theta X;
  do pd <- cl_prepare (fst (fst src)) (snd (fst src));
  let (p, l) := pd in
  match type_of model_type with
  | None => Err ValueError
  | Some m =>
      do beta <- coerce_vector beta0 p;
      do gamma <- coerce_vector gamma0 p;
      let q := {| p_beta := beta; p_alpha := match alpha0 with Some a => a | None => 0 end; p_gamma := gamma |} in
      do f <- cl_loop (cl_step m i0 i1 solve pinv p l) tol max_iter q None None;
      Ok {| cl_p := p; cl_obs := l; cl_names := match snd src with Some n => n | None => map xname (seq 0 p) end;
            cl_mt := m; cl_fit := f |}
  end.

(** regression.py:438-445, 460-467: the number of parameters of AIC and BIC. *)
Definition cl_nparams (m : cl_type) (f : fit) : nat :=
  match m with
  | Mean => List.length (p_beta (f_par f))
  | Kappa => 1 + List.length (p_gamma (f_par f))
  | Mixed => 1 + List.length (p_beta (f_par f)) + List.length (p_gamma (f_par f))
  end.
(** regression.py:430-449 [AIC], 451-471 [BIC]. *)
Definition cl_aic (c : clreg) : fl :=
  match cl_fit c with
  | NanFit => NaN
  | Fitted f => Fin (-2 * f_ll f + 2 * INR (cl_nparams (cl_mt c) f))
  end.
Definition cl_bic (c : clreg) : fl :=
  match cl_fit c with
  | NanFit => NaN
  | Fitted f => Fin (-2 * f_ll f + INR (cl_nparams (cl_mt c) f) * ln (INR (List.length (cl_obs c))))
  end.
(** regression.py:473-505 [predict]. *)
Definition cl_predict (c : clreg) (X : xarg) : res vec :=
  match cl_fit c with
  | NanFit => Err ValueError
  | Fitted f =>
      let beta := p_beta (f_par f) in
      let at_rows m := Ok (map (fun r => f_mu f + 2 * atan (dot r beta)) m) in
      match X with
      | X0 _ => Err IndexError
      | X1 l => if negb (Nat.eqb 1 (List.length beta)) then Err ValueError
                else match finite l with None => Err ValueError | Some v => at_rows (map (fun x => [x]) v) end
      | X2 p rows =>
          if negb (forallb (fun r => Nat.eqb (List.length r) p) rows) then Err ValueError
          else if negb (Nat.eqb p (List.length beta)) then Err ValueError
          else match finite_rows rows with None => Err ValueError | Some m => at_rows m end
      end
  end.

(** ** CCRegression *)
(** regression.py:707-717 [_validate_input]; theta is one-dimensional. *)
Definition cc_theta (theta : list fl) : res vec :=
  match finite theta with None => Err ValueError | Some v => Ok (map (fun x => pymod x (2 * PI)) v) end.
(** The number of predictors and the rows. *)
Definition cc_x (x : xarg) : res (nat * mat) :=
  match x with
  | X0 _ => Err ValueError
  | X1 l => match finite l with None => Err ValueError | Some v => Ok (1%nat, map (fun x => [pymod x (2 * PI)]) v) end
  | X2 p rows =>
      if negb (forallb (fun r => Nat.eqb (List.length r) p) rows) then Err ValueError
      else match finite_rows rows with None => Err ValueError | Some m => Ok (p, map (map (fun x => pymod x (2 * PI))) m) end
  end.
(** regression.py:719-726 [_parse_formula]. *)
Definition cc_parse (formula : string) (data : frame) : res (list fl * xarg * list string) :=
  do nm <- formula_names formula;
  do theta <- column data (fst nm);
  do cols <- columns data (snd nm);
  Ok (theta, X2 (List.length (snd nm)) (rows_of (List.length theta) cols), snd nm).

(** regression.py:738-744: the labels (predictor, harmonic) of the cosine and of the sine
    columns, and a row of the design matrix (750-751). *)
Definition cc_labels (p order : nat) : list (nat * nat) :=
  flat_map (fun j => map (fun k => (j, k)) (seq 1 order)) (seq 0 p).
Definition cc_row (p order : nat) (x : vec) : vec :=
  1 :: map (fun jk => cos (INR (snd jk) * nth (fst jk) x 0)) (cc_labels p order)
    ++ map (fun jk => sin (INR (snd jk) * nth (fst jk) x 0)) (cc_labels p order).
(** regression.py:767-774: a row of W. *)
Definition cc_wrow (p order : nat) (x : vec) : vec :=
  (map (fun j => cos (INR (S order) * nth j x 0)) (seq 0 p) ++ map (fun j => sin (INR (S order) * nth j x 0)) (seq 0 p))%list.

(** regression.py:778-801: the statistic of one response. *)
Definition cc_N (inv : mat -> option mat) (pinv : mat -> mat) (n m q : nat) (X W : mat) : mat :=
  let XtX := mmul m n m (tr n m X) X in
  let M := mmul n m n (mmul n m m X (safe_inverse inv pinv XtX)) (tr n m X) in
  let H := mmul q n q (mmul q n n (tr n q W) (msub n n (eye n) M)) W in
  mmul n q n (mmul n q q W (safe_inverse inv pinv H)) (tr n q W).
Definition cc_T (N : mat) (n order : nat) (r : vec) : R :=
  INR (Nat.max (n - (2 * order + 1)) 1) * dot (vec_of n (fun j => Rsum (vec_of n (fun i => nth i r 0 * ent N i j)))) r
  / Rmax (dot r r) small.

(** The message (809-817). *)
Inductive verdict := NoHarmonics | NotSignificant | Significant.
Record ccreg := { cc_rho : fl; cc_fitted : vec; cc_residuals : vec; cc_cos : vec; cc_sin : vec;
                  cc_lab : list (nat * nat); cc_p : option (R * R); cc_message : verdict }.
(** regression.py:728-831 [_fit]; np.angle(np.exp(1j * d)) is the angle of (cos d, sin d). *)
Definition cc_fit (lstsq : mat -> vec -> vec) (inv : mat -> option mat) (pinv : mat -> mat) (chi2 : R -> nat -> R)
    (theta : vec) (p : nat) (x : mat) (order : nat) (level : R) : res ccreg :=
  let n := List.length x in
  let X := map (cc_row p order) x in
  if negb (Nat.eqb (List.length theta) n) then Err ValueError
  else
    let beta_cos := lstsq X (map cos theta) in
    let beta_sin := lstsq X (map sin theta) in
    let cos_fit := mv X beta_cos in
    let sin_fit := mv X beta_sin in
    let fitted := map2 (fun s c => pymod (arctan2 s c) (2 * PI)) sin_fit cos_fit in
    let residuals := map2 (fun t f => arctan2 (sin (t - f)) (cos (t - f))) theta fitted in
    let rho := match x with
               | [] => NaN
               | _ => Fin (clip (sqrt (mean (map2 (fun c s => c ^ 2 + s ^ 2) cos_fit sin_fit))) 0 1)
               end in
    let pv :=
      if Nat.eqb n 0 || Nat.eqb p 0 then None
      else
        let N := cc_N inv pinv n (List.length (cc_row p order [])) (2 * p) X (map (cc_wrow p order) x) in
        let T1 := cc_T N n order (vsub (map cos theta) cos_fit) in
        let T2 := cc_T N n order (vsub (map sin theta) sin_fit) in
        Some (1 - chi2 T1 (2 * p)%nat, 1 - chi2 T2 (2 * p)%nat) in
    Ok {| cc_rho := rho; cc_fitted := fitted; cc_residuals := residuals; cc_cos := beta_cos; cc_sin := beta_sin;
          cc_lab := cc_labels p order; cc_p := pv;
          cc_message := match pv with
                        | None => NoHarmonics
                        | Some (p1, p2) => if Rltb level p1 && Rltb level p2 then NotSignificant else Significant
                        end |}.
(** regression.py:672-705 [__init__]; order is an integer. *)
Definition CCRegression (lstsq : mat -> vec -> vec) (inv : mat -> option mat) (pinv : mat -> mat) (chi2 : R -> nat -> R)
    (formula : option string) (data : option frame) (theta : option (list fl)) (x : option xarg)
    (order : Z) (level : R) : res ccreg :=
  do src <- match formula, data with
            | Some (String a s), Some d => do r <- cc_parse (String a s) d; Ok (fst r)
            | _, _ => match theta, x with Some t, Some x => Ok (t, x) | _, _ => Err ValueError end
            end;
  do th <- cc_theta (fst src);
  do px <- cc_x (snd src);
  if (order <? 1)%Z then Err ValueError
  else if negb (Rltb 0 level && Rltb level 1) then Err ValueError
  else cc_fit lstsq inv pinv chi2 th (fst px) (snd px) (Z.to_nat order) level.
