(** Model of distributions.py: cartwright.  Scalar arguments and parameters.  scipy's gamma,
    gammaln, digamma, beta, betainc and betaincinv are arguments. *)
From Verif Require Import Prelude NpModel DescModel DistModel.

(** Python's x ** y for x >= 0 and y > 0. *)
Definition npow (x y : R) : R := if Rltb 0 x then Rpower x y else 0.

(** distributions.py:1762-1767. *)
Definition cw_ok (mu zeta : R) : bool := Rleb 0 mu && Rleb mu (2 * PI) && Rltb 0 zeta.
(** distributions.py:1785-1790. *)
Definition cw_pdf (gamma : R -> R) (mu zeta x : R) : R :=
  (Rpower 2 (- 1 + 1 / zeta) * gamma (1 + 1 / zeta) ^ 2) * npow (1 + cos (x - mu)) (1 / zeta) / (PI * gamma (1 + 2 / zeta)).
(** distributions.py:1819-1841 for one angle. *)
Definition cw_cum (betainc : R -> R -> R -> R) (a b half phi : R) : R :=
  if Rleb phi PI then half * betainc a b (clip (sin (1 / 2 * phi) ^ 2) 0 1)
  else 1 - half * betainc a b (clip (sin (1 / 2 * (2 * PI - phi)) ^ 2) 0 1).
(** distributions.py:1862-1871 and 1932-1942: the mass of half a turn. *)
Definition cw_half (gamma : R -> R) (beta : R -> R -> R) (zeta : R) : R :=
  let b := 1 / zeta + 1 / 2 in
  let const := Rpower 2 (- 1 + 1 / zeta) * gamma (1 + 1 / zeta) ^ 2 / (PI * gamma (1 + 2 / zeta)) in
  Rmax (const * Rpower 2 (1 / zeta) * beta (1 / 2) b) ftiny.
(** distributions.py:1843-1895. *)
Definition cw_cdf (gamma : R -> R) (beta : R -> R -> R) (betainc : R -> R -> R -> R) (mu zeta x : R) : R :=
  let wrapped := wrap_angles x in
  let b := 1 / zeta + 1 / 2 in
  let half := cw_half gamma beta zeta in
  let phi_start := pymod (- mu) (2 * PI) in
  let phi_end := pymod (wrapped - mu) (2 * PI) in
  let H_start := cw_cum betainc (1 / 2) b half phi_start in
  let H_end := cw_cum betainc (1 / 2) b half phi_end in
  let cdf := if Rleb phi_start phi_end then clip (H_end - H_start) 0 1 else 1 - clip (H_start - H_end) 0 1 in
  let cdf := if Rltb cdf 0 then cdf + 1 else cdf in
  if close_2pi wrapped then 1 else clip cdf 0 1.
(** distributions.py:1920-1988 for 0 <= q <= 1. *)
Definition cw_ppf (gamma : R -> R) (beta : R -> R -> R) (betainc betaincinv : R -> R -> R -> R) (mu zeta q : R) : R :=
  let mu_val := pymod mu (2 * PI) in
  let b := 1 / zeta + 1 / 2 in
  let half := cw_half gamma beta zeta in
  let phi_start := pymod (- mu_val) (2 * PI) in
  let H_start := cw_cum betainc (1 / 2) b half phi_start in
  let s := pymod (H_start + q) 1 in
  let phi :=
    if Rleb s (1 / 2) then 2 * asin (sqrt (clip (betaincinv (1 / 2) b (clip (s / half) 0 1)) 0 1))
    else 2 * PI - 2 * asin (sqrt (clip (betaincinv (1 / 2) b (clip ((1 - s) / half) 0 1)) 0 1)) in
  if isclose_tol 0 (/ 10 ^ 12) q 1 then 2 * PI
  else if isclose_tol 0 (/ 10 ^ 12) q 0 then pymod (mu_val + phi_start) (2 * PI)
  else pymod (mu_val + phi) (2 * PI).
(** distributions.py:2029-2060 (2091-2097) for one draw [t] of rng.beta(0.5, 1/zeta + 0.5) and one
    draw [u] of rng.random(). *)
Definition cw_rvs (mu zeta t u : R) : res R :=
  let mu_val := pymod mu (2 * PI) in
  if Rleb zeta 0 then Err ValueError
  else
    let angle := 2 * asin (clip (sqrt t) 0 1) in
    Ok (pymod (mu_val + (if Rltb u (1 / 2) then - 1 else 1) * angle) (2 * PI)).

(** distributions.py:2161-2178; data and weights paired up. *)
Definition cw_log_c (gammaln : R -> R) (z : R) : R :=
  (- 1 + 1 / z) * ln 2 + 2 * gammaln (1 + 1 / z) - ln PI - gammaln (1 + 2 * (1 / z)).
Definition cw_sum_log (s : list (R * R)) (mu : R) : R :=
  Rsum (map (fun p => snd p * ln (Rmax (1 + cos (fst p - mu)) (/ 10 ^ 15))) s).
Definition cw_nll (gammaln : R -> R) (s : list (R * R)) (mu zeta : R) : fl :=
  if Rleb zeta 0 then PInf
  else Fin (- (Rsum (map snd s) * cw_log_c gammaln zeta + 1 / zeta * cw_sum_log s mu)).
(** distributions.py:2180-2192. *)
Definition cw_grad (digamma : R -> R) (s : list (R * R)) (mu zeta : R) : R * R :=
  let inv := 1 / zeta in
  let term := 2 * digamma (1 + 2 * inv) - (ln 2 + 2 * digamma (1 + inv)) in
  (- (1 / zeta) * Rsum (map (fun p => snd p * sin (fst p - mu) / Rmax (1 + cos (fst p - mu)) (/ 10 ^ 15)) s),
   (cw_sum_log s mu - Rsum (map snd s) * term) / zeta ^ 2).
(** distributions.py:2147-2159: the moment estimates. *)
Definition cw_start (s : wsample) : R * R :=
  let '(m, _) := circ_mean_and_r_s s in
  let mu := pymod (match m with Fin v => v | _ => 0 end) (2 * PI) in
  let m_t := Rsum (map (fun p => snd p * sin (1 / 2 * (pymod (fst p - mu + PI) (2 * PI) - PI)) ^ 2) s) / wtotal s in
  let m_t := clip m_t 0 (1 / 2 - / 10 ^ 12) in
  (mu, if Rleb m_t (/ 10 ^ 12) then / 10 ^ 6 else clip (m_t / Rmax (/ 10 ^ 12) (1 / 2 - m_t)) (/ 10 ^ 6) (10 ^ 6)).
(** distributions.py:2129-2145: the checks and the wrapped data. *)
Definition cw_data (s : wsample) : res wsample :=
  match s with
  | [] => Err ValueError
  | _ =>
      if existsb (fun p => Rltb (snd p) 0) s then Err ValueError
      else if Rleb (wtotal s) 0 then Err ValueError
      else Ok (map (fun p => (wrap_angles (fst p), snd p)) s)
  end.
(** distributions.py:2194-2241: fit(return_info=True): the estimates, info["loglik"] and
    info["n_effective"].  [minimize obj mu zeta] is the optimiser started at (mu, zeta): None when it
    reports failure, else the point and the value. *)
Definition cw_neff (s : wsample) : R := wtotal s ^ 2 / Rsum (map (fun p => snd p ^ 2) s).
Definition fopp (v : fl) : fl := match v with Fin x => Fin (- x) | NaN => NaN | PInf => NInf | NInf => PInf end.
Definition cw_fit_moments (gammaln : R -> R) (s : wsample) : res (R * R * fl * R) :=
  do s <- cw_data s;
  let '(mu, zeta) := cw_start s in
  let mu := wrap_direction mu in
  Ok (mu, zeta, fopp (cw_nll gammaln s mu zeta), cw_neff s).
Definition cw_fit_mle (gammaln : R -> R) (minimize : (R -> R -> fl) -> R -> R -> option (R * R * fl)) (s : wsample) : res (R * R * fl * R) :=
  do s <- cw_data s;
  let '(mu, zeta) := cw_start s in
  match minimize (cw_nll gammaln s) mu (clip zeta (/ 10 ^ 3) (10 ^ 4)) with
  | None => Err RuntimeError
  | Some (m, z, v) => Ok (wrap_direction m, clip z (/ 10 ^ 6) (10 ^ 6), fopp v, cw_neff s)
  end.
