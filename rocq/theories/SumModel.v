(** Model of the tables printed by CLRegression.summary and CCRegression.summary
    (pycircstat2/regression.py:510-621, 833-873): the numbers of each row before they are rounded for
    printing.  [Phi] is norm.cdf. *)
From Coq Require Import String List.
From Verif Require Import Prelude NpModel UtilsModel ClusModel RegModel.
Import ListNotations.
Open Scope R_scope.
Open Scope list_scope.

(** utils.py:122-133: NaN is below no threshold. *)
Definition mark (p : fl) : string := match p with Fin v => significance_code v | _ => EmptyString end.
(** A row: Estimate, Std. Error, t value, Pr(>|t|) and the mark. *)
Record coef_row := { r_est : R; r_se : fl; r_t : fl; r_p : fl; r_mark : string }.
(** regression.py:545, 575, 588: coef / se_val if se_val else nan. *)
Definition ratio (coef : R) (se : fl) : fl :=
  match se with Fin s => if Reqb s 0 then NaN else Fin (coef / s) | _ => NaN end.
(** regression.py:546-550, 576-580, 589-593. *)
Definition tail_p (Phi : R -> R) (t : fl) : fl :=
  match t with Fin t => Fin (2 * (1 - Phi (Rabs t))) | _ => NaN end.
(** regression.py:543-553: the absolute value of the ratio. *)
Definition beta_row (Phi : R -> R) (coef : R) (se : fl) : coef_row :=
  let t := flabs (ratio coef se) in
  {| r_est := coef; r_se := se; r_t := t; r_p := tail_p Phi t; r_mark := mark (tail_p Phi t) |}.
(** regression.py:573-583, 586-596: the ratio with its sign. *)
Definition conc_row (Phi : R -> R) (coef : R) (se : fl) : coef_row :=
  let t := ratio coef se in
  {| r_est := coef; r_se := se; r_t := t; r_p := tail_p Phi t; r_mark := mark (tail_p Phi t) |}.
(** regression.py:531-553, the rows beta0, beta1, ...; None when the table is left out. *)
Definition beta_table (Phi : R -> R) (m : cl_type) (f : fit) (s : ses) : option (list coef_row) :=
  match m, se_beta s with
  | Mean, Some l | Mixed, Some l => Some (map2 (beta_row Phi) (p_beta (f_par f)) l)
  | _, _ => None
  end.
(** regression.py:556-596, the rows alpha, gamma0, gamma1, ... *)
Definition conc_table (Phi : R -> R) (m : cl_type) (f : fit) (s : ses) : option (list coef_row) :=
  match m, se_ag s with
  | Kappa, Some (a, l) | Mixed, Some (a, l) =>
      Some (conc_row Phi (p_alpha (f_par f)) a :: map2 (conc_row Phi) (p_gamma (f_par f)) l)
  | _, _ => None
  end.

(** regression.py:851-869: label, cosine coefficient, sine coefficient.  The coefficients are read by
    position; lstsq returns one for each column. *)
Definition cc_label (fn : string) (jk : nat * nat) : string :=
  (fn ++ "(" ++ xname (S (fst jk)) ++ ",k=" ++ show_nat (S (snd jk)) (snd jk) ++ ")")%string.
Definition cc_rows (fn : string) (offset : nat) (c : ccreg) : list (string * R * R) :=
  map (fun i => (cc_label fn (nth i (cc_lab c) (0, 0)%nat), nth (offset + i) (cc_cos c) 0, nth (offset + i) (cc_sin c) 0))
      (seq 0 (List.length (cc_lab c))).
Definition cc_table (c : ccreg) : list (string * R * R) :=
  ("(Intercept)"%string, nth 0 (cc_cos c) 0, nth 0 (cc_sin c) 0)
  :: cc_rows "cos" 1 c ++ cc_rows "sin" (1 + List.length (cc_lab c)) c.
(** regression.py:692 (and 128): the names of the predictors of arrays. *)
Definition cc_names (p : nat) : list string := map xname (seq 0 p).
