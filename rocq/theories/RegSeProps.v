(** Property theorems for the standard errors of circular-linear regression (C193).
    [cl_run] is CLRegression on arrays of numbers. *)
From Coq Require Import String.
From Verif Require Import Prelude NpModel UtilsModel CircleSpec IntSpec VonSpec VonProofs RegModel RegSpec RegClSpec RegSeSpec RegProofs Reg4Proofs Reg9Proofs Reg10Proofs Reg11Proofs Reg12Proofs Reg13Proofs Reg14Proofs Reg15Proofs Reg16Proofs Reg17Proofs Reg18Proofs Reg19Proofs RegClEx RegSeEx RegClProps.

(** ** C193: the standard errors are those of the Fisher information *)
(** The mean model.  The standard errors of beta are the square roots of the diagonal of the
    inverse of the information of beta (plus 1e-8 on its diagonal) when mu and kappa are known;
    that of mu has the information of mu when the others are known times 1 - p/n; kappa is
    orthogonal to mu and beta, and its standard error is that of its information.  Missing: that
    mu and beta are estimated together. *)
Theorem C193_mean_partial : forall iv solve pinv inv theta p rows b0 a0 g0 tol it c f k, is_iv iv -> right_solve solve -> right_inv inv -> cc_data theta p rows ->
  cl_run iv solve pinv theta p rows "mean" b0 a0 g0 tol it = Ok c -> cl_fit c = Fitted f -> f_kappa f = One k -> k <> 0 ->
  let s := standard_errors (iv 0%nat) (iv 1%nat) inv pinv (cl_mt c) p (cl_obs c) f in
  let b := p_beta (f_par f) in let mu := f_mu f in
  (exists A B, information iv p (fun e s => tan_link mu (along b s e)) (fun _ _ _ => k) rows A /\ inverse_of p (/ 10 ^ 8) A B /\ se_beta s = Some (root_diag B (seq 0 p))) /\
  (exists v, fisher iv (fun s => tan_link (mu + s) b) (fun _ _ => k) rows v /\ se_mu s = Fin (1 / sqrt (Rmax ((1 - INR p / INR (List.length theta)) * v) (/ 10 ^ 12)))) /\
  (exists v, se_kappa s = [Fin (1 / sqrt (Rmax v (/ 10 ^ 12)))] /\
     forall dm db, List.length db = p -> exists u, forall dk, fisher iv (fun s => tan_link (mu + s * dm) (along b s db)) (fun s _ => k + s * dk) rows (u + v * dk ^ 2)).
Proof. exact mean_ses_run. Qed.
Print Assumptions C193_mean_partial.
Example C193_mean_run : forall iv solve pinv tol, is_iv iv -> right_solve solve ->
  exists c f k, cc_data th2 1 (x2 1) /\ cl_run iv solve pinv th2 1 (x2 1) "mean" None None None tol 1 = Ok c /\ cl_fit c = Fitted f /\ f_kappa f = One k /\ 0 < k.
Proof. intros iv solve pinv tol Hi Hs. destruct (run2_pos iv solve pinv 1 tol Hi Hs ltac:(lra)) as (c & f & B & k & E & Ef & _ & _ & Ek & Hk & _). exists c, f, k. split; [apply data2|]. repeat (split; [assumption|]). apply Hk. Qed.
(** The other models, at a run to which one more iteration changes nothing.  alpha and gamma are
    orthogonal to the parameters of the location, and their standard errors are the square roots
    of the diagonal of the inverse of their information (plus 1e-8); that of mu has the
    information of mu when the others are known minus 1/2; those of beta are as in the mean
    model; that of the concentration of an observation takes all n observations to have that
    concentration.  Missing: that mu and beta are estimated together, the standard errors of the
    concentrations, and runs stopped by max_iter. *)
Theorem C193_concentration_partial : forall iv solve pinv inv theta p rows mt b0 a0 g0 tol it c c' f, is_iv iv -> right_solve solve -> right_inv inv -> cc_data theta p rows -> mt <> "mean"%string ->
  cl_run iv solve pinv theta p rows mt b0 a0 g0 tol it = Ok c -> cl_run iv solve pinv theta p rows mt b0 a0 g0 tol (S it) = Ok c' ->
  cl_fit c = Fitted f -> cl_fit c' = Fitted f ->
  let s := standard_errors (iv 0%nat) (iv 1%nat) inv pinv (cl_mt c) p (cl_obs c) f in
  let b := p_beta (f_par f) in let a := p_alpha (f_par f) in let g := p_gamma (f_par f) in let mu := f_mu f in
  let loc m b := if String.eqb mt "kappa" then fun _ => m else tan_link m b in
  (exists A B, symmetric (S p) A /\
     (forall dm db, List.length db = p -> exists u, forall da dg, List.length dg = p ->
        fisher iv (fun s => loc (mu + s * dm) (along b s db)) (fun s => log_link (a + s * da) (along g s dg)) rows (u + quad_form (S p) A (da :: dg))) /\
     inverse_of (S p) (/ 10 ^ 8) A B /\ se_ag s = Some (Fin (sqrt (entry B 0 0)), root_diag B (seq 1 p))) /\
  (exists v, fisher iv (fun s => loc (mu + s) b) (fun _ => log_link a g) rows v /\ se_mu s = Fin (1 / sqrt (Rmax (v - 1 / 2) (/ 10 ^ 12)))) /\
  (mt = "mixed"%string -> exists A B, information iv p (fun e s => tan_link mu (along b s e)) (fun _ _ => log_link a g) rows A /\ inverse_of p (/ 10 ^ 8) A B /\ se_beta s = Some (root_diag B (seq 0 p))) /\
  (List.length (se_kappa s) = List.length rows /\ forall i, (i < List.length rows)%nat -> exists v,
     fisher iv (fun _ => loc mu b) (fun s x => log_link a g x + s) [nth i rows []] v /\ nth i (se_kappa s) NaN = Fin (1 / sqrt (Rmax (INR (List.length rows) * v) (/ 10 ^ 12)))).
Proof. exact conc_ses_run. Qed.
Print Assumptions C193_concentration_partial.
Example C193_concentration_run : forall iv solve pinv tol, is_iv iv -> right_solve solve -> 0 < tol ->
  exists c c' f, cl_run iv solve pinv [dk iv; - dk iv] 1 [[0]; [1]] "kappa" None (Some 0) (Some [0]) tol 2 = Ok c /\ cl_run iv solve pinv [dk iv; - dk iv] 1 [[0]; [1]] "kappa" None (Some 0) (Some [0]) tol 3 = Ok c' /\
    cl_fit c = Fitted f /\ cl_fit c' = Fitted f /\ f_mu f = 0 /\ f_kappa f = Each [1; 1].
Proof. intros iv solve pinv tol Hi Hs Ht. destruct (kappa_settled iv solve pinv tol Hi Hs Ht) as (c & c' & f & E & E' & Ef & Ef' & _ & _ & _ & Emu & Ek). exists c, c', f. auto 10. Qed.
(** mu and beta are estimated together, and the inverse of their joint information gives beta
    more than twice the reported variance (predictors 0 and 1). *)
Theorem C193_beta_refuted : forall iv solve pinv inv tol, is_iv iv -> right_solve solve -> right_inv inv ->
  exists theta p rows c f k A B v, cc_data theta p rows /\ cl_run iv solve pinv theta p rows "mean" None None None tol 1 = Ok c /\ cl_fit c = Fitted f /\ f_kappa f = One k /\
    information iv (S p) (fun e s => tan_link (f_mu f + s * nth 0 e 0) (along (p_beta (f_par f)) s (tl e))) (fun _ _ _ => k) rows A /\ inverse_of (S p) 0 A B /\
    se_beta (standard_errors (iv 0%nat) (iv 1%nat) inv pinv Mean p (cl_obs c) f) = Some [Fin v] /\ 0 < v /\ 2 * v ^ 2 < entry B 1 1.
Proof. exact se_beta_short. Qed.
Print Assumptions C193_beta_refuted.
(** The concentration of an observation is exp(alpha + x gamma); the inverse B of the
    information of (alpha, gamma) gives it the variance kappa^2 (1, x) B (1, x).  Here every
    reported variance is half of that. *)
Theorem C193_kappa_refuted : forall iv solve pinv inv tol, is_iv iv -> right_solve solve -> right_inv inv -> 0 < tol ->
  exists theta p rows a0 g0 c c' f A B, cc_data theta p rows /\ cl_run iv solve pinv theta p rows "kappa" None a0 g0 tol 2 = Ok c /\ cl_run iv solve pinv theta p rows "kappa" None a0 g0 tol 3 = Ok c' /\
    cl_fit c = Fitted f /\ cl_fit c' = Fitted f /\
    information iv (S p) (fun _ _ _ => f_mu f) (fun e s => log_link (p_alpha (f_par f) + s * nth 0 e 0) (along (p_gamma (f_par f)) s (tl e))) rows A /\ inverse_of (S p) 0 A B /\
    forall i, (i < List.length rows)%nat -> let x := nth i rows [] in exists v, nth i (se_kappa (standard_errors (iv 0%nat) (iv 1%nat) inv pinv Kappa p (cl_obs c) f)) NaN = Fin v /\ 0 < v /\
      2 * v ^ 2 = log_link (p_alpha (f_par f)) (p_gamma (f_par f)) x ^ 2 * quad_form (S p) B (1 :: x).
Proof. exact se_kappa_short. Qed.
Print Assumptions C193_kappa_refuted.
