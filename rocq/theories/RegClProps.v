(** Property theorems for circular-linear regression (C181-C192).  [cl_run iv solve pinv theta p
    rows model_type beta0 alpha0 gamma0 tol max_iter] is CLRegression on arrays of numbers. *)
From Coq Require Import String Permutation.
From Verif Require Import Prelude NpModel UtilsModel CircleSpec IntSpec VonSpec VonProofs RegModel RegSpec RegClSpec RegProofs Reg4Proofs Reg9Proofs Reg10Proofs Reg11Proofs Reg12Proofs Reg13Proofs Reg14Proofs Reg15Proofs Reg16Proofs Reg17Proofs Reg20Proofs RegEx RegClEx.

Example cl_oracles : exists iv solve inv, is_iv iv /\ right_solve solve /\ right_inv inv.
Proof. destruct iv_exists as [iv H]. destruct solve_exists as [s Hs]. destruct Reg2Proofs.inv_exists as [i Hinv]. exists iv, s, i. auto. Qed.
Example cl_data_is_met : cc_data th2 1 (x2 1) /\ cc_data th4 1 x4 /\ cc_data thm 1 x4.
Proof. exact (conj (data2 1) (conj data4 datam)). Qed.

(** ** C181: inputs *)
(** A formula with a table gives what the columns as arrays give, with the names of the columns. *)
Theorem C181_formula : forall i0 i1 solve pinv d y xs theta rows t' x' mt b0 a0 g0 tol it, table_of d y xs theta rows ->
  match CLRegression i0 i1 solve pinv (Some (formula_text y xs)) (Some d) t' x' mt b0 a0 g0 tol it,
        CLRegression i0 i1 solve pinv None None (Some theta) (Some (X2 (List.length xs) rows)) mt b0 a0 g0 tol it with
  | Ok c, Ok c' => cl_p c = cl_p c' /\ cl_obs c = cl_obs c' /\ cl_mt c = cl_mt c' /\ cl_fit c = cl_fit c' /\ cl_names c = xs
  | Err e, Err e' => e = e'
  | _, _ => False
  end.
Proof. exact cl_formula. Qed.
Print Assumptions C181_formula.
Theorem C181_one_predictor : forall i0 i1 solve pinv theta l mt b0 a0 g0 tol it,
  CLRegression i0 i1 solve pinv None None (Some theta) (Some (X1 l)) mt b0 a0 g0 tol it =
  CLRegression i0 i1 solve pinv None None (Some theta) (Some (X2 1 (map (fun x => [x]) l))) mt b0 a0 g0 tol it.
Proof. exact cl_one_dim. Qed.
Print Assumptions C181_one_predictor.
(** An empty response, a NaN or infinite value, ragged rows, different lengths, an unknown model
    type or starting values of another length: ValueError. *)
Theorem C181_bad_inputs : forall i0 i1 solve pinv theta p rows mt b0 a0 g0 tol it,
  let number_list l := forall x, In x l -> exists r, x = Fin r in
  let start_fits v := match v with None => True | Some l => List.length l = p /\ number_list l end in
  ~ (theta <> [] /\ number_list theta /\ (forall r, In r rows -> List.length r = p /\ number_list r) /\ List.length theta = List.length rows /\
     (mt = "mean"%string \/ mt = "kappa"%string \/ mt = "mixed"%string) /\ start_fits b0 /\ start_fits g0) ->
  CLRegression i0 i1 solve pinv None None (Some theta) (Some (X2 p rows)) mt b0 a0 g0 tol it = Err ValueError.
Proof. exact cl_bad. Qed.
Print Assumptions C181_bad_inputs.
(** Predictors given as an array are named x0, x1, ... *)
Theorem C181_names : forall iv solve pinv theta p rows mt b0 a0 g0 tol it c, cc_data theta p rows -> cl_run iv solve pinv theta p rows mt b0 a0 g0 tol it = Ok c ->
  List.length (cl_names c) = p /\ forall i, (i < p)%nat -> exists s, nth i (cl_names c) EmptyString = ("x" ++ s)%string /\ decimal 0 s = Some i.
Proof. exact cl_run_names. Qed.
Print Assumptions C181_names.
Example C181_bad : forall i0 i1 solve pinv, CLRegression i0 i1 solve pinv None None (Some [Fin 0; Fin 1]) (Some (X2 1 [[Fin 0]; [NaN]])) "mean" None None None (1/100) 10 = Err ValueError.
Proof. reflexivity. Qed.

(** ** C182: the reported mu and kappa belong to the reported coefficients *)
(** Shown of a run to which one more allowed iteration changes nothing: the reported mu, in
    (-pi, pi], maximises the likelihood at the reported coefficients, and the reported kappa is
    the one of the reported coefficients.  Missing: runs stopped by max_iter. *)
Theorem C182_values_partial : forall iv solve pinv theta p rows mt b0 a0 g0 tol it c c' f, is_iv iv -> cc_data theta p rows ->
  cl_run iv solve pinv theta p rows mt b0 a0 g0 tol it = Ok c -> cl_run iv solve pinv theta p rows mt b0 a0 g0 tol (S it) = Ok c' ->
  cl_fit c = Fitted f -> cl_fit c' = Fitted f ->
  let b := p_beta (f_par f) in let a := p_alpha (f_par f) in let g := p_gamma (f_par f) in
  - PI < f_mu f <= PI /\
  match cl_mt c with
  | Mean => exists k, f_kappa f = One k /\ k = A1inv (resultant (map (fun o => fst o - 2 * atan (inner (snd o) b)) (combine theta rows))) /\
      forall mu', vm_loglik iv (under (tan_link mu' b) (fun _ => k) theta rows) <= vm_loglik iv (under (tan_link (f_mu f) b) (fun _ => k) theta rows)
  | Kappa => f_kappa f = Each (map (log_link a g) rows) /\
      forall mu', vm_loglik iv (under (fun _ => mu') (log_link a g) theta rows) <= vm_loglik iv (under (fun _ => f_mu f) (log_link a g) theta rows)
  | Mixed => f_kappa f = Each (map (log_link a g) rows) /\
      forall mu', vm_loglik iv (under (tan_link mu' b) (log_link a g) theta rows) <= vm_loglik iv (under (tan_link (f_mu f) b) (log_link a g) theta rows)
  end.
Proof.
  intros iv solve pinv theta p rows mt b0 a0 g0 tol it c c' f Hi D E E' Ef Ef'. destruct (cl_settled _ _ _ _ _ _ _ _ _ _ _ _ _ _ _ Hi D E E' Ef Ef') as (_ & M & B & K).
  cbv zeta. split; [exact B|]. unfold cl_loc, cl_conc in *. destruct (cl_mt c); [|split; [exact K|exact M]|split; [exact K|exact M]]. rewrite K in M. eexists. split; [exact K|]. split; [reflexivity|exact M].
Qed.
Print Assumptions C182_values_partial.
Example C182_settles : forall iv solve pinv tol, is_iv iv -> right_solve solve -> 0 < tol ->
  exists c c' f, cl_run iv solve pinv th4 1 x4 "mean" None None None tol 2 = Ok c /\ cl_run iv solve pinv th4 1 x4 "mean" None None None tol 3 = Ok c' /\ cl_fit c = Fitted f /\ cl_fit c' = Fitted f /\
    cl_mt c = Mean /\ f_kappa f <> One 0.
Proof. exact settled4_same. Qed.
(** A run stopped by max_iter reports the mu of the coefficients before the last update. *)
Theorem C182_refuted : forall iv solve pinv tol, is_iv iv -> right_solve solve ->
  exists theta p rows c f k mu', cc_data theta p rows /\ cl_run iv solve pinv theta p rows "mean" None None None tol 1 = Ok c /\ cl_fit c = Fitted f /\ f_kappa f = One k /\
    vm_loglik iv (under (tan_link (f_mu f) (p_beta (f_par f))) (fun _ => k) theta rows) < vm_loglik iv (under (tan_link mu' (p_beta (f_par f))) (fun _ => k) theta rows).
Proof. exact stale_full. Qed.
Print Assumptions C182_refuted.

(** ** C183: log_likelihood is the log-likelihood of the reported fit *)
(** Up to the constant n ln(2 pi), and of a run to which one more iteration changes nothing. *)
Theorem C183_loglik_partial : forall iv solve pinv theta p rows mt b0 a0 g0 tol it c c' f, is_iv iv -> cc_data theta p rows ->
  cl_run iv solve pinv theta p rows mt b0 a0 g0 tol it = Ok c -> cl_run iv solve pinv theta p rows mt b0 a0 g0 tol (S it) = Ok c' ->
  cl_fit c = Fitted f -> cl_fit c' = Fitted f ->
  let loc := match cl_mt c with Kappa => fun _ => f_mu f | _ => tan_link (f_mu f) (p_beta (f_par f)) end in
  let conc := match cl_mt c with Mean => fun _ => match f_kappa f with One k => k | Each _ => 0 end | _ => log_link (p_alpha (f_par f)) (p_gamma (f_par f)) end in
  f_ll f = vm_loglik iv (under loc conc theta rows) + INR (List.length theta) * ln (2 * PI).
Proof.
  intros iv solve pinv theta p rows mt b0 a0 g0 tol it c c' f Hi D E E' Ef Ef'. exact (proj1 (cl_settled _ _ _ _ _ _ _ _ _ _ _ _ _ _ _ Hi D E E' Ef Ef')).
Qed.
Print Assumptions C183_loglik_partial.
Theorem C183_refuted : forall iv solve pinv tol, is_iv iv -> right_solve solve -> 0 < tol ->
  exists theta p rows c c' f k, cc_data theta p rows /\ cl_run iv solve pinv theta p rows "mean" None None None tol 2 = Ok c /\ cl_run iv solve pinv theta p rows "mean" None None None tol 3 = Ok c' /\
    cl_fit c = Fitted f /\ cl_fit c' = Fitted f /\ f_kappa f = One k /\
    f_ll f <> vm_loglik iv (under (tan_link (f_mu f) (p_beta (f_par f))) (fun _ => k) theta rows).
Proof. exact ll_constant. Qed.
Print Assumptions C183_refuted.

(** ** C184-C186: where the iteration stands still *)
(** The mean model: one iteration leaves beta as it is exactly when the derivative of the
    likelihood in beta is that of the ridge penalty 1e-8 |beta|^2 / 2. *)
Theorem C184_stationary : forall iv solve pinv theta p rows b a0 g0 tol c f k, is_iv iv -> right_solve solve -> cc_data theta p rows ->
  cl_run iv solve pinv theta p rows "mean" (Some b) a0 g0 tol 1 = Ok c -> cl_fit c = Fitted f -> f_kappa f = One k ->
  (p_beta (f_par f) = b <->
   forall e, List.length e = p -> derivable_pt_lim (fun s => vm_loglik iv (under (tan_link (f_mu f) (along b s e)) (fun _ => k) theta rows)) 0 (/ 10 ^ 8 * inner b e)).
Proof. exact mean_fixed. Qed.
Print Assumptions C184_stationary.
Example C184_run : forall iv solve pinv tol, is_iv iv -> right_solve solve ->
  exists c f, cl_run iv solve pinv th4 1 x4 "mean" (Some [0]) None None tol 1 = Ok c /\ cl_fit c = Fitted f /\ p_beta (f_par f) = [0] /\ exists k, f_kappa f = One k /\ 0 < k.
Proof. exact stays4. Qed.
Theorem C185_stationary : forall iv solve pinv theta p rows b0 a g tol c f, is_iv iv -> right_solve solve -> cc_data theta p rows ->
  cl_run iv solve pinv theta p rows "kappa" b0 (Some a) (Some g) tol 1 = Ok c -> cl_fit c = Fitted f ->
  (p_alpha (f_par f) = a /\ p_gamma (f_par f) = g <->
   forall da dg, List.length dg = p -> derivable_pt_lim (fun s => vm_loglik iv (under (fun _ => f_mu f) (log_link (a + s * da) (along g s dg)) theta rows)) 0 0).
Proof. exact kappa_fixed. Qed.
Print Assumptions C185_stationary.
Example C185_run : forall iv solve pinv tol, is_iv iv -> right_solve solve ->
  exists c f, cl_run iv solve pinv [dk iv; - dk iv] 1 [[0]; [1]] "kappa" None (Some 0) (Some [0]) tol 1 = Ok c /\ cl_fit c = Fitted f /\ f_mu f = 0 /\ p_alpha (f_par f) = 0 /\ p_gamma (f_par f) = [0].
Proof. exact kappa_stays. Qed.
(** The mixed model: the same of alpha and gamma.  Missing: beta. *)
Theorem C186_stationary_partial : forall iv solve pinv theta p rows b a g tol c f, is_iv iv -> right_solve solve -> cc_data theta p rows ->
  cl_run iv solve pinv theta p rows "mixed" (Some b) (Some a) (Some g) tol 1 = Ok c -> cl_fit c = Fitted f ->
  (p_alpha (f_par f) = a /\ p_gamma (f_par f) = g <->
   forall da dg, List.length dg = p -> derivable_pt_lim (fun s => vm_loglik iv (under (tan_link (f_mu f) b) (log_link (a + s * da) (along g s dg)) theta rows)) 0 0).
Proof. exact mixed_fixed. Qed.
Print Assumptions C186_stationary_partial.
Example C186_run : forall iv solve pinv tol, is_iv iv -> exists c f, cl_run iv solve pinv thm 1 x4 "mixed" (Some [1]) (Some 0) (Some [0]) tol 1 = Ok c /\ cl_fit c = Fitted f.
Proof. exact mixed_run. Qed.
(** beta = 1 is stationary for the likelihood, and the next beta is below 1/2. *)
Theorem C186_refuted : forall iv solve pinv tol, is_iv iv -> right_solve solve ->
  exists theta p rows c f B, cc_data theta p rows /\ cl_run iv solve pinv theta p rows "mixed" (Some [1]) (Some 0) (Some [0]) tol 1 = Ok c /\ cl_fit c = Fitted f /\
    (forall e, List.length e = p -> derivable_pt_lim (fun s => vm_loglik iv (under (tan_link (f_mu f) (along [1] s e)) (log_link 0 [0]) theta rows)) 0 0) /\
    p_beta (f_par f) = [B] /\ B < 1/2.
Proof. intros iv solve pinv tol Hi Hs. exists thm, 1%nat, x4. destruct (mixed_moves iv solve pinv tol Hi Hs) as (c & f & B & H). exists c, f, B. split; [exact datam|exact H]. Qed.
Print Assumptions C186_refuted.

(** ** C187: the linear algebra, and the standard errors *)
(** The fit does not depend on which correct solver is used, nor on the pseudo-inverse. *)
Theorem C187_solver : forall iv solve pinv solve' pinv' theta p rows mt b0 a0 g0 tol it, is_iv iv -> right_solve solve -> right_solve solve' -> cc_data theta p rows ->
  cl_run iv solve pinv theta p rows mt b0 a0 g0 tol it = cl_run iv solve' pinv' theta p rows mt b0 a0 g0 tol it.
Proof. exact cl_same. Qed.
Print Assumptions C187_solver.
(** The coefficients have one entry for each predictor. *)
Theorem C187_lengths : forall iv solve pinv theta p rows mt b0 a0 g0 tol it c f, is_iv iv -> right_solve solve -> cc_data theta p rows ->
  cl_run iv solve pinv theta p rows mt b0 a0 g0 tol it = Ok c -> cl_fit c = Fitted f -> List.length (p_beta (f_par f)) = p /\ List.length (p_gamma (f_par f)) = p.
Proof. exact fit_sized. Qed.
Print Assumptions C187_lengths.
(** Unless kappa = 0, the standard errors of mu, of every coefficient fitted and of kappa are
    positive numbers, one for each. *)
Theorem C187_standard_errors : forall iv solve pinv inv theta p rows mt b0 a0 g0 tol it c f, is_iv iv -> right_solve solve -> right_inv inv -> cc_data theta p rows ->
  cl_run iv solve pinv theta p rows mt b0 a0 g0 tol it = Ok c -> cl_fit c = Fitted f -> f_kappa f <> One 0 ->
  let s := standard_errors (iv 0%nat) (iv 1%nat) inv pinv (cl_mt c) p (cl_obs c) f in
  let good x := exists v, 0 < v /\ x = Fin v in
  match se_beta s with Some l => List.length l = p /\ Forall good l | None => True end /\
  match se_ag s with Some (a, l) => good a /\ List.length l = p /\ Forall good l | None => True end /\
  good (se_mu s) /\ Forall good (se_kappa s) /\ List.length (se_kappa s) = (if String.eqb mt "mean" then 1%nat else List.length theta) /\
  (se_beta s = None <-> mt = "kappa"%string) /\ (se_ag s = None <-> mt = "mean"%string).
Proof. exact cl_ses_full. Qed.
Print Assumptions C187_standard_errors.

(** ** C188: turning and reordering *)
(** All directions turned by d (each written in any full turn): the same coefficients, kappa and
    log-likelihood, and mu turned by d - unless kappa = 0. *)
Theorem C188_turned_mean : forall iv solve pinv d theta theta' p rows b0 a0 g0 tol it c f, cc_data theta p rows ->
  List.length theta' = List.length theta /\ (forall i, (i < List.length theta)%nat -> same_dir (nth i theta' 0) (nth i theta 0 + d)) ->
  cl_run iv solve pinv theta p rows "mean" b0 a0 g0 tol it = Ok c -> cl_fit c = Fitted f ->
  exists c' f', cl_run iv solve pinv theta' p rows "mean" b0 a0 g0 tol it = Ok c' /\ cl_fit c' = Fitted f' /\
    f_par f' = f_par f /\ f_kappa f' = f_kappa f /\ f_ll f' = f_ll f /\ (f_kappa f <> One 0 -> same_dir (f_mu f') (f_mu f + d)).
Proof. exact cl_mean_turned. Qed.
Print Assumptions C188_turned_mean.
(** The other models: if at the start and after every iteration (the runs with tol = 0) the
    weighted deviations have a mean direction. *)
Theorem C188_turned : forall iv solve pinv d theta theta' p rows mt b0 a0 g0 tol it c f, cc_data theta p rows ->
  List.length theta' = List.length theta /\ (forall i, (i < List.length theta)%nat -> same_dir (nth i theta' 0) (nth i theta 0 + d)) -> mt <> "mean"%string ->
  let loc b := if String.eqb mt "kappa" then fun _ => 0 else tan_link 0 b in
  let zero v := match v with None => repeat 0 p | Some v => v end in
  ~ balanced (loc (zero b0)) (log_link (match a0 with Some a => a | None => 0 end) (zero g0)) theta rows ->
  (forall n c0 f0, (0 < n < it)%nat -> cl_run iv solve pinv theta p rows mt b0 a0 g0 0 n = Ok c0 -> cl_fit c0 = Fitted f0 ->
     ~ balanced (loc (p_beta (f_par f0))) (log_link (p_alpha (f_par f0)) (p_gamma (f_par f0))) theta rows) ->
  cl_run iv solve pinv theta p rows mt b0 a0 g0 tol it = Ok c -> cl_fit c = Fitted f ->
  exists c' f', cl_run iv solve pinv theta' p rows mt b0 a0 g0 tol it = Ok c' /\ cl_fit c' = Fitted f' /\
    f_par f' = f_par f /\ f_kappa f' = f_kappa f /\ f_ll f' = f_ll f /\ same_dir (f_mu f') (f_mu f + d).
Proof. exact cl_turned_other. Qed.
Print Assumptions C188_turned.
Example C188_data : (forall b a g, ~ balanced (loc0 "kappa" b) (log_link a g) th2 (x2 1)) /\ cl_turned 1 th2 [1; PI / 2 + 1 - 2 * PI].
Proof. exact (conj (th2_unbalanced 1) th2_turned). Qed.
Example C188_run : forall iv solve pinv tol, is_iv iv -> exists c f, cl_run iv solve pinv th2 1 (x2 1) "kappa" None None None tol 1 = Ok c /\ cl_fit c = Fitted f.
Proof. exact th2_kappa_run. Qed.
(** The order of the observations does not matter. *)
Theorem C188_reordered : forall iv solve pinv theta theta' p rows rows' mt b0 a0 g0 tol it c f, cc_data theta p rows -> cc_data theta' p rows' -> Permutation (combine theta rows) (combine theta' rows') ->
  cl_run iv solve pinv theta p rows mt b0 a0 g0 tol it = Ok c -> cl_fit c = Fitted f ->
  exists c' f', cl_run iv solve pinv theta' p rows' mt b0 a0 g0 tol it = Ok c' /\ cl_fit c' = Fitted f' /\
    f_par f' = f_par f /\ f_mu f' = f_mu f /\ f_ll f' = f_ll f /\
    match f_kappa f, f_kappa f' with One a, One b => a = b | Each u, Each v => Permutation u v | _, _ => False end.
Proof. exact cl_reordered. Qed.
Print Assumptions C188_reordered.

(** ** C189: the units of a predictor *)
(** With the predictor measured in other units (every value times c) the coefficient is not the
    one divided by c: the ridge depends on the units. *)
Theorem C189_refuted : forall iv solve pinv tol, is_iv iv -> right_solve solve ->
  exists theta rows c cl cl' f f' B B', 0 < c /\ cc_data theta 1 rows /\
    cl_run iv solve pinv theta 1 rows "mean" None None None tol 1 = Ok cl /\ cl_run iv solve pinv theta 1 (map (map (Rmult c)) rows) "mean" None None None tol 1 = Ok cl' /\
    cl_fit cl = Fitted f /\ cl_fit cl' = Fitted f' /\ p_beta (f_par f) = [B] /\ p_beta (f_par f') = [B'] /\ 0 < B /\ c * B' < B / 2.
Proof. exact units_full. Qed.
Print Assumptions C189_refuted.

(** ** C190: AIC and BIC *)
(** Missing: mu and kappa (the mean model) or mu (the others) among the parameters counted. *)
Theorem C190_criteria_partial : forall iv solve pinv theta p rows mt b0 a0 g0 tol it c f, is_iv iv -> right_solve solve -> cc_data theta p rows ->
  cl_run iv solve pinv theta p rows mt b0 a0 g0 tol it = Ok c -> cl_fit c = Fitted f ->
  let k := INR (match cl_mt c with Mean => p | Kappa => p + 1 | Mixed => 2 * p + 1 end) in
  cl_aic c = Fin (2 * k - 2 * f_ll f) /\ cl_bic c = Fin (k * ln (INR (List.length theta)) - 2 * f_ll f).
Proof. exact cl_criteria. Qed.
Print Assumptions C190_criteria_partial.
(** The mixed model fits 2 p + 2 parameters and the mean model p + 2; the AICs differ by another
    penalty. *)
Theorem C190_refuted : forall iv solve pinv tol, is_iv iv -> right_solve solve ->
  exists theta p rows c c' f f' a a', cc_data theta p rows /\
    cl_run iv solve pinv theta p rows "mean" None None None tol 1 = Ok c /\ cl_run iv solve pinv theta p rows "mixed" None None None tol 1 = Ok c' /\
    cl_fit c = Fitted f /\ cl_fit c' = Fitted f' /\ cl_aic c = Fin a /\ cl_aic c' = Fin a' /\
    a' - a <> 2 * (f_ll f - f_ll f') + 2 * (INR (2 * p + 2) - INR (p + 2)).
Proof.
  intros iv solve pinv tol Hi Hs. destruct (aic2 iv solve pinv tol Hi Hs) as (c & c' & f & f' & E & E' & Ef & Ef' & a & a' & H). exists th2, 1%nat, (x2 1), c, c', f, f', a, a'. split; [apply data2|]. tauto.
Qed.
Print Assumptions C190_refuted.

(** ** C191: predictions *)
(** At rows of p numbers: the location the model gives them.  Missing: the concentration model
    with starting values for beta. *)
Theorem C191_predict_partial : forall iv solve pinv theta p rows mt b0 a0 g0 tol it c f new, is_iv iv -> right_solve solve -> cc_data theta p rows ->
  cl_run iv solve pinv theta p rows mt b0 a0 g0 tol it = Ok c -> cl_fit c = Fitted f -> mt <> "kappa"%string \/ b0 = None ->
  (forall r, In r new -> List.length r = p) ->
  cl_predict c (X2 p (map (map Fin) new)) = Ok (map (match cl_mt c with Kappa => fun _ => f_mu f | _ => tan_link (f_mu f) (p_beta (f_par f)) end) new).
Proof. exact cl_predict_rows. Qed.
Print Assumptions C191_predict_partial.
Theorem C191_one_predictor : forall c l, cl_predict c (X1 l) = cl_predict c (X2 1 (map (fun x => [x]) l)).
Proof. exact cl_predict_one. Qed.
Print Assumptions C191_one_predictor.
(** Anything but rows of as many numbers as there are coefficients is ValueError (IndexError for
    a scalar). *)
Theorem C191_bad_inputs : forall c f X, cl_fit c = Fitted f ->
  let number_list l := forall x, In x l -> exists r, x = Fin r in
  let ok := match X with X0 _ => False | X1 l => List.length (p_beta (f_par f)) = 1%nat /\ number_list l
            | X2 p rows => p = List.length (p_beta (f_par f)) /\ forall r, In r rows -> List.length r = p /\ number_list r end in
  (ok -> exists v, cl_predict c X = Ok v) /\ (~ ok -> cl_predict c X = Err (match X with X0 _ => IndexError | _ => ValueError end)).
Proof. exact cl_predict_bad. Qed.
Print Assumptions C191_bad_inputs.
(** Without coefficients (the mean model of a constant response, C192) nothing is predicted. *)
Theorem C191_no_coefficients : forall iv solve pinv t n p rows b0 a0 g0 tol it X, cc_data (repeat t n) p rows -> b0 = None \/ b0 = Some (repeat 0 p) -> match g0 with None => True | Some v => List.length v = p end -> (1 <= it)%nat ->
  exists c, cl_run iv solve pinv (repeat t n) p rows "mean" b0 a0 g0 tol it = Ok c /\ cl_predict c X = Err ValueError.
Proof. intros iv solve pinv t n p rows b0 a0 g0 tol it X D B G I. destruct (cl_constant iv solve pinv t n p rows b0 a0 g0 tol it D B G I) as (c & E & N). exists c. split; [exact E|apply predict_nan, N]. Qed.
Print Assumptions C191_no_coefficients.
(** The concentration model has one location, and predict with starting values for beta adds
    the tangent link of those. *)
Theorem C191_refuted : forall iv solve pinv tol, is_iv iv -> right_solve solve ->
  exists theta p rows c f, cc_data theta p rows /\ cl_run iv solve pinv theta p rows "kappa" (Some [1]) None None tol 1 = Ok c /\ cl_fit c = Fitted f /\
    cl_predict c (X2 1 [[Fin 1]]) = Ok [f_mu f + PI / 2].
Proof. intros iv solve pinv tol Hi Hs. destruct (kappa_predict iv solve pinv tol Hi Hs) as (c & f & E & Ef & _ & P). exists th4, 1%nat, x4, c, f. split; [exact data4|]. auto. Qed.
Print Assumptions C191_refuted.

(** ** C192: a fit of numbers, or ValueError *)
(** Good inputs and at least one iteration: the mean model gives an object, the others one with
    numbers or ValueError.  Missing: no iteration, and the numbers of the mean model. *)
Theorem C192_outcomes_partial : forall iv solve pinv theta p rows mt b0 a0 g0 tol it,
  let number_list l := forall x, In x l -> exists r, x = Fin r in
  let start_fits v := match v with None => True | Some l => List.length l = p /\ number_list l end in
  theta <> [] /\ number_list theta /\ (forall r, In r rows -> List.length r = p /\ number_list r) /\ List.length theta = List.length rows /\
     (mt = "mean"%string \/ mt = "kappa"%string \/ mt = "mixed"%string) /\ start_fits b0 /\ start_fits g0 -> (1 <= it)%nat ->
  match CLRegression (iv 0%nat) (iv 1%nat) solve pinv None None (Some theta) (Some (X2 p rows)) mt b0 a0 g0 tol it with
  | Ok c => mt = "mean"%string \/ exists f, cl_fit c = Fitted f
  | Err e => e = ValueError /\ mt <> "mean"%string
  end.
Proof. exact cl_good_outcomes. Qed.
Print Assumptions C192_outcomes_partial.
(** max_iter = 0 raises UnboundLocalError. *)
Theorem C192_no_iteration : forall iv solve pinv theta p rows mt b0 a0 g0 tol,
  let number_list l := forall x, In x l -> exists r, x = Fin r in
  let start_fits v := match v with None => True | Some l => List.length l = p /\ number_list l end in
  theta <> [] /\ number_list theta /\ (forall r, In r rows -> List.length r = p /\ number_list r) /\ List.length theta = List.length rows /\
     (mt = "mean"%string \/ mt = "kappa"%string \/ mt = "mixed"%string) /\ start_fits b0 /\ start_fits g0 ->
  CLRegression (iv 0%nat) (iv 1%nat) solve pinv None None (Some theta) (Some (X2 p rows)) mt b0 a0 g0 tol 0 = Err UnboundLocalError.
Proof. exact cl_no_iteration. Qed.
Print Assumptions C192_no_iteration.
(** A constant response makes the mean model report NaN. *)
Theorem C192_constant : forall iv solve pinv t n p rows b0 a0 g0 tol it, cc_data (repeat t n) p rows -> b0 = None \/ b0 = Some (repeat 0 p) -> match g0 with None => True | Some v => List.length v = p end -> (1 <= it)%nat ->
  exists c, cl_run iv solve pinv (repeat t n) p rows "mean" b0 a0 g0 tol it = Ok c /\ cl_fit c = NanFit.
Proof. exact cl_constant. Qed.
Print Assumptions C192_constant.
Theorem C192_refuted : forall iv solve pinv tol it, (1 <= it)%nat ->
  exists theta p rows, cc_data theta p rows /\ cl_run iv solve pinv theta p rows "mean" None None None tol 0 = Err UnboundLocalError /\
    exists c, cl_run iv solve pinv theta p rows "mean" None None None tol it = Ok c /\ cl_fit c = NanFit.
Proof. exact nan_fit. Qed.
Print Assumptions C192_refuted.
