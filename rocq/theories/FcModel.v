(** Model of distributions.py: the fits of cardioid, wrapcauchy and triangular with their info
    dictionaries, and the samplers of circularuniform, triangular and cardioid.  Data and weights are
    paired up; parameters are scalars. *)
From Coq Require Import Ascii String.
From Verif Require Import Prelude NpModel DescModel CorrModel DistModel CwModel.
Import ListNotations.
Open Scope R_scope.
Open Scope list_scope.

(** What scipy's minimize is asked for: objective, gradient and start; None when it reports failure,
    else the point, the value and the gradient there (result.x, result.fun, result.jac). *)
Definition minimizer := (R -> R -> fl) -> (R -> R -> R * R) -> R -> R -> option (R * R * fl * (R * R)).
(** The estimates, info["loglik"], info["n_effective"] and info["grad_norm"] if present. *)
Definition fit_info := (R * R * fl * R * option R)%type.

(** distributions.py:1640-1643 and 3178-3181: mean direction (0 when undefined) and resultant length. *)
Definition fc_start (s : wsample) : R * R :=
  let '(m, r) := circ_mean_and_r_s s in
  (pymod (match m with Fin v => v | _ => 0 end) (2 * PI), r).

(** distributions.py:1592-1728 [cardioid.fit].  The checks of lines 1623-1638 are those of
    cartwright's [cw_data]; "nit", "converged" and the messages are left out. *)
Definition car_fit (minimize : minimizer) (method : string) (s : wsample) : res fit_info :=
  do s <- cw_data s;
  let '(mu_mom, r_mom) := fc_start s in
  let rho_mom := clip r_mom 0 (1 / 2) in
  if String.eqb (lower method) "moments" then
    let mu := wrap_direction mu_mom in
    Ok (mu, rho_mom, fopp (car_nll s mu rho_mom), cw_neff s, None)
  else if String.eqb (lower method) "mle" then
    if Rleb rho_mom (/ 10 ^ 12) then
      let mu := wrap_direction mu_mom in
      Ok (mu, 0, fopp (car_nll s mu 0), cw_neff s, None)
    else
      match minimize (car_nll s) (car_grad s) mu_mom rho_mom with
      | None => Err RuntimeError
      | Some (m, r, v, (g1, g2)) =>
          Ok (wrap_direction m, clip r 0 (1 / 2), fopp v, cw_neff s, Some (sqrt (g1 ^ 2 + g2 ^ 2)))
      end
  else Err ValueError.

(** distributions.py:3129-3256 [wrapcauchy.fit]. *)
Definition wc_method (method : string) : string :=
  let k := lower method in
  if String.eqb k "analytical" then "moments"%string else if String.eqb k "numerical" then "mle"%string else k.
Definition wc_fit (minimize : minimizer) (method : string) (s : wsample) : res fit_info :=
  do s <- cw_data s;
  let '(mu_mom, r_mom) := fc_start s in
  let rho_mom := clip r_mom 0 (1 - / 10 ^ 12) in
  if String.eqb (wc_method method) "moments" then
    let mu := wrap_direction mu_mom in
    Ok (mu, rho_mom, fopp (wc_nll s mu rho_mom), cw_neff s, None)
  else if String.eqb (wc_method method) "mle" then
    match minimize (wc_nll s) (wc_grad s) mu_mom (Rmax (/ 10 ^ 3) (Rmin rho_mom (1 - / 10 ^ 3))) with
    | None => Err RuntimeError
    | Some (m, r, v, (g1, g2)) =>
        Ok (wrap_direction m, clip r (/ 10 ^ 9) (1 - / 10 ^ 9), fopp v, cw_neff s, Some (sqrt (g1 ^ 2 + g2 ^ 2)))
    end
  else Err ValueError.

(** distributions.py:1155-1264 [triangular.fit] with return_info=True: the estimate, info["loglik"],
    info["se"] and info["n_effective"].  Lines 1220-1226 and 1257-1260 compute the diagnostics; numpy's
    log of 0 is -inf and a division by 0 gives inf (so se = 0), or NaN when the weight is 0. *)
Definition tri_diag (s : wsample) (rho : R) : fl * fl :=
  let bad p := Rleb (4 + rho * tri_c (fst p)) 0 in
  if existsb (fun p => bad p && Rleb (snd p) 0) s then (NaN, NaN)
  else if existsb bad s then (NInf, Fin 0)
  else
    let ll := Rsum (map (fun p => snd p * ln (4 - PI ^ 2 * rho + 2 * PI * rho * Rabs (PI - pymod (fst p) (2 * PI)))) s)
              - Rsum (map snd s) * ln (8 * PI) in
    let info := Rsum (map (fun p => snd p * tri_c (fst p) ^ 2 / (4 + rho * tri_c (fst p)) ^ 2) s) in
    (Fin ll, if Rltb 0 info then Fin (1 / sqrt info) else NaN).
Definition tri_fit (root : (R -> R) -> R -> R -> R) (method : string) (s : wsample) : res (R * fl * fl * R) :=
  do rho <- (if String.eqb method "moments" then tri_fit_moments s else tri_fit_mle root s);
  let '(ll, se) := tri_diag s rho in
  Ok (rho, ll, se, wtotal s ^ 2 / Rsum (map (fun p => snd p ^ 2) s)).

(** distributions.py:845-847 [circularuniform._rvs] for one draw [v] of rng.uniform(0, 2 pi). *)
Definition cu_rvs (v : R) : R := v.
(** distributions.py:1095-1101, 1150-1153 [triangular.rvs] for one draw [u] of rng.uniform(0, 1); the
    parameter is not checked.  None: rho neither given nor frozen. *)
Definition tri_rvs (rho : option R) (u : R) : res R :=
  match rho with None => Err ValueError | Some rho => Ok (tri_ppf rho u) end.
(** distributions.py:1526-1547, 1584-1590 [cardioid.rvs] for one draw [v] of rng.uniform(0, 2 pi) or
    one draw [u] of rng.uniform(0, 1). *)
Definition car_rvs (mu rho : option R) (u v : R) : res R :=
  match mu, rho with
  | Some mu, Some rho =>
      let mu_val := pymod mu (2 * PI) in
      if negb (Rleb 0 rho && Rleb rho (1 / 2)) then Err ValueError
      else if close_0 (/ 10 ^ 15) rho then Ok v
      else Ok (car_solve mu_val rho u)
  | _, _ => Err ValueError
  end.
