(** C221, C222: the tables printed by the summaries of the regressions. *)
From Coq Require Import String List.
From Verif Require Import Prelude NpModel UtilsModel CircleSpec IntSpec VonSpec RegModel RegSpec RegClSpec RegProofs Reg4Proofs Reg9Proofs Reg11Proofs RegEx RegClEx RegSeEx RegClProps SumModel SumSpec SumProofs Sum2Proofs.
Import ListNotations.
Open Scope R_scope.
Open Scope list_scope.

(** ** C221: the coefficient tables of circular-linear regression *)
(** Missing: the sign of the t value in the table of beta (C221_sign_refuted). *)
Theorem C221_tables_partial : forall Phi iv solve pinv inv theta p rows mt b0 a0 g0 tol it c f, symmetric_cdf Phi -> is_iv iv -> right_solve solve -> right_inv inv -> cc_data theta p rows ->
  cl_run iv solve pinv theta p rows mt b0 a0 g0 tol it = Ok c -> cl_fit c = Fitted f -> f_kappa f <> One 0 ->
  let s := standard_errors (iv 0%nat) (iv 1%nat) inv pinv (cl_mt c) p (cl_obs c) f in
  match beta_table Phi (cl_mt c) f s with
  | None => mt = "kappa"%string
  | Some rows => mt <> "kappa"%string /\ exists l, se_beta s = Some l /\ table (wald_row Phi false) (p_beta (f_par f)) l rows /\ List.length rows = p
  end /\
  match conc_table Phi (cl_mt c) f s with
  | None => mt = "mean"%string
  | Some rows => mt <> "mean"%string /\ exists a l, se_ag s = Some (a, l) /\ table (wald_row Phi true) (p_alpha (f_par f) :: p_gamma (f_par f)) (a :: l) rows /\ List.length rows = S p
  end.
Proof. exact cl_tables. Qed.
Print Assumptions C221_tables_partial.
(** The smaller of two p-values belongs to the larger |estimate| / standard error. *)
Theorem C221_order : forall Phi g g' b b' s s' r r' p p', symmetric_cdf Phi -> 0 < s -> 0 < s' -> wald_row Phi g b s r -> wald_row Phi g' b' s' r' ->
  r_p r = Fin p -> r_p r' = Fin p' -> (p < p' <-> Rabs b' / s' < Rabs b / s).
Proof. exact row_order. Qed.
Print Assumptions C221_order.
Theorem C221_sign_refuted : forall Phi iv solve pinv inv tol, symmetric_cdf Phi -> is_iv iv -> right_solve solve -> right_inv inv ->
  exists theta p rows c f B r t, cc_data theta p rows /\ cl_run iv solve pinv theta p rows "mean" None None None tol 1 = Ok c /\ cl_fit c = Fitted f /\ f_kappa f <> One 0 /\
    p_beta (f_par f) = [B] /\ beta_table Phi (cl_mt c) f (standard_errors (iv 0%nat) (iv 1%nat) inv pinv (cl_mt c) p (cl_obs c) f) = Some [r] /\
    r_est r = B /\ B < 0 /\ r_t r = Fin t /\ 0 < t.
Proof.
  intros Phi iv solve pinv inv tol HP Hi Hs Hv. destruct (falling iv solve pinv inv Phi tol Hi Hs Hv HP) as (c & f & B & r & t & H).
  exists th2, 1%nat, (x2 (-1)), c, f, B, r, t. exact (conj (data2 (-1)) H).
Qed.
Print Assumptions C221_sign_refuted.
Example C221_example : exists Phi iv solve inv, symmetric_cdf Phi /\ is_iv iv /\ right_solve solve /\ right_inv inv /\ forall pinv,
  exists c f, cl_run iv solve pinv th2 1 (x2 (-1)) "mean" None None None (1 / 100) 1 = Ok c /\ cl_fit c = Fitted f /\ f_kappa f <> One 0.
Proof. exact ex_tables. Qed.

(** ** C222: the table of circular-circular regression *)
(** The two columns, each number multiplied by the term its label stands for, add up to the polynomials
    whose direction is the fitted direction. *)
Theorem C222_table_partial : forall lstsq inv pinv chi2 theta p rows order level c, List.length theta = List.length rows -> (forall r, In r rows -> List.length r = p) ->
  CCRegression lstsq inv pinv chi2 None None (Some (map Fin theta)) (Some (X2 p (map (map Fin) rows))) order level = Ok c ->
  List.length (cc_table c) = (1 + 2 * (p * Z.to_nat order))%nat /\
  exists hs, Forall2 (fun r h => stands_for (fst (fst r)) h) (cc_table c) hs /\
  forall i, (i < List.length theta)%nat ->
    let f := nth i (cc_fitted c) 0 in let x := nth i rows [] in
    let C := row_sum (fun r => snd (fst r)) (cc_table c) hs x in let S := row_sum (fun r => snd r) (cc_table c) hs x in
    0 <= f < 2 * PI /\ C = sqrt (C * C + S * S) * cos f /\ S = sqrt (C * C + S * S) * sin f.
Proof. exact cc_table_fit. Qed.
Print Assumptions C222_table_partial.
(** The labels do not use the names of the predictors: with two predictors named x0 and x1, the row
    labelled x1 holds the coefficients of x0. *)
Theorem C222_names_refuted : forall lstsq inv pinv chi2, exists theta rows c,
  CCRegression lstsq inv pinv chi2 None None (Some (map Fin theta)) (Some (X2 2 (map (map Fin) rows))) 1 (1 / 20) = Ok c /\
  cc_names 2 = ["x0"; "x1"]%string /\ nth_error (cc_table c) 1 = Some ("cos(x1,k=1)"%string, nth 1 (cc_cos c) 0, nth 1 (cc_sin c) 0) /\ nth_error (cc_lab c) 0 = Some (0, 1)%nat.
Proof. exact misnamed. Qed.
Print Assumptions C222_names_refuted.
Example C222_example : List.length th2 = List.length two_x /\ (forall r, In r two_x -> List.length r = 2%nat) /\
  forall lstsq inv pinv chi2, exists c, CCRegression lstsq inv pinv chi2 None None (Some (map Fin th2)) (Some (X2 2 (map (map Fin) two_x))) 1 (1 / 20) = Ok c.
Proof. split; [reflexivity|]. split; [intros r [<-|[<-|[]]]; reflexivity|]. exact two_x_fit. Qed.
