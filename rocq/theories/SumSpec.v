(** Specification vocabulary for the printed tables; of the model it mentions only the record of a row
    and the code of a p-value (C06). *)
From Coq Require Import String List Ascii.
From Verif Require Import Prelude UtilsModel RegSpec RegClSpec SumModel.
Import ListNotations.
Open Scope R_scope.
Open Scope list_scope.

(** The distribution function of a symmetric law with positive density, such as the normal law. *)
Definition symmetric_cdf (Phi : R -> R) : Prop :=
  (forall x, 0 < Phi x < 1) /\ (forall x y, x < y -> Phi x < Phi y) /\ forall x, Phi (- x) = 1 - Phi x.
(** The term that a label of the circular-circular table stands for. *)
Inductive stands_for : string -> (list R -> R) -> Prop :=
| sf_one : stands_for "(Intercept)" (fun _ => 1)
| sf_cos n k j h : decimal 0 n = Some (S j) -> decimal 0 k = Some h ->
    stands_for ("cos(x" ++ n ++ ",k=" ++ k ++ ")") (fun x => cos (INR h * nth j x 0))
| sf_sin n k j h : decimal 0 n = Some (S j) -> decimal 0 k = Some h ->
    stands_for ("sin(x" ++ n ++ ",k=" ++ k ++ ")") (fun x => sin (INR h * nth j x 0)).
(** What a row says; [signed]: the t value keeps the sign of the estimate. *)
Definition wald_row (Phi : R -> R) (signed : bool) (b s : R) (r : coef_row) : Prop :=
  r_est r = b /\ r_se r = Fin s /\ r_t r = Fin (if signed then b / s else Rabs b / s) /\
  exists p, r_p r = Fin p /\ p = 2 * Phi (- (Rabs b / s)) /\ 0 < p <= 1 /\ (p = 1 <-> b = 0) /\ r_mark r = significance_code p.
(** [table P ests ses rows]: one row for each estimate and standard error, in order. *)
Definition table (P : R -> R -> coef_row -> Prop) (ests : list R) (ses : list fl) (rows : list coef_row) : Prop :=
  List.length rows = List.length ests /\ List.length ses = List.length ests /\
  forall i, (i < List.length ests)%nat -> exists s r, nth_error ses i = Some (Fin s) /\ 0 < s /\ nth_error rows i = Some r /\ P (nth i ests 0) s r.
(** The column of coefficients [v] of the table, each multiplied by the term of its row. *)
Definition row_sum (v : string * R * R -> R) (rows : list (string * R * R)) (hs : list (list R -> R)) (x : list R) : R :=
  Rsum (map (fun rh => v (fst rh) * snd rh x) (combine rows hs)).
