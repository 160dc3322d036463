(** Model of wrapstable (distributions.py:7473-8078).  Scalar arguments and parameters; the
    cache of series terms (7966-7977) is keyed by the parameters and left out. *)
From Verif Require Import Prelude NpModel UtilsModel DescModel DistModel.

(** distributions.py:7532-7548. *)
Definition ws_ok (delta alpha beta gamma : R) : bool :=
  Rleb 0 delta && Rleb delta (2 * PI) && Rltb 0 alpha && Rleb alpha 2 && Rltb (- 1) beta && Rltb beta 1 && Rltb 0 gamma.

(** distributions.py:73-79: _WRAPSTABLE_MAX_TERMS, _WRAPSTABLE_ALPHA_TOL. *)
Definition ws_max : nat := Z.to_nat 20000.
Definition ws_atol : R := / 10 ^ 10.
(** np.ceil. *)
Definition Rceil (x : R) : Z := (- Rfloor (- x))%Z.
(** distributions.py:7983-8002 [_initial_order] for a tolerance below 1 and positive alpha. *)
Definition ws_initial (alpha gamma tol : R) : nat :=
  let exponent := ln (- ln tol) / alpha - ln gamma in
  if Rltb (ln (INR ws_max)) exponent then ws_max
  else Nat.min ws_max (Z.to_nat (Rceil (Rmax 1 (exp exponent)))).
(** distributions.py:8009, 8017; [Rpower] is ** for a positive base. *)
Definition ws_rho (alpha gamma : R) (p : nat) : R := exp (- Rpower (gamma * INR p) alpha).
(** distributions.py:8008-8014; [fuel] counts the remaining iterations. *)
Fixpoint ws_loop (alpha gamma : R) (fuel P : nat) : nat :=
  match fuel with
  | O => P
  | S f =>
      if Rleb (ws_rho alpha gamma P) (/ 10 ^ 12) && Rleb (ws_rho alpha gamma P / INR P) (/ 10 ^ 12) then P
      else if Nat.leb ws_max (S P) then S P
      else ws_loop alpha gamma f (S P)
  end.
(** distributions.py:8004-8014: the number of terms. *)
Definition ws_order (alpha gamma : R) : nat :=
  let p_pdf := ws_initial alpha gamma (/ 10 ^ 12) in
  let p_cdf := ws_initial alpha gamma (/ 10 ^ 12) in
  ws_loop alpha gamma ws_max (Nat.max 1 (Nat.max p_pdf p_cdf)).
(** distributions.py:8019-8024. *)
Definition ws_mu (delta alpha beta gamma : R) (p : nat) : R :=
  if Rleb (Rabs (alpha - 1)) ws_atol
  then delta * INR p + 2 / PI * beta * gamma * INR p * ln (gamma * INR p)
  else delta * INR p + beta * tan (1 / 2 * PI * alpha) * (Rpower (gamma * INR p) alpha - gamma * INR p).

(** distributions.py:7550-7558. *)
Definition ws_pdf (delta alpha beta gamma x : R) : R :=
  1 / (2 * PI) * (1 + 2 * Rsum (map (fun p => ws_rho alpha gamma p * cos (INR p * x - ws_mu delta alpha beta gamma p))
                                     (seq 1 (ws_order alpha gamma)))).
(** distributions.py:7602-7628. *)
Definition ws_raw (delta alpha beta gamma x : R) : R :=
  let ps := seq 1 (ws_order alpha gamma) in
  let series := Rsum (map (fun p => ws_rho alpha gamma p / INR p * sin (INR p * x - ws_mu delta alpha beta gamma p)) ps) in
  let anchor := 1 / PI * Rsum (map (fun p => ws_rho alpha gamma p / INR p * sin (- ws_mu delta alpha beta gamma p)) ps) in
  x / (2 * PI) + 1 / PI * series - anchor.
Definition ws_cdf (delta alpha beta gamma x : R) : R :=
  let v := ws_raw delta alpha beta gamma x in
  let v := if Rltb v 0 then v + 1 else v in
  let v := clip v 0 1 in
  if isclose_tol (/ 100000) (/ 10 ^ 12) x (2 * PI) then 1
  else if isclose_tol (/ 100000) (/ 10 ^ 12) x 0 then 0
  else v.

(** distributions.py:7665-7690: the Newton steps; the last component tells whether the loop was
    left by [break]. *)
Fixpoint ws_newton (cdf pdf : R -> R) (q : R) (n : nat) (lo hi theta : R) : R * R * R * bool :=
  match n with
  | O => (lo, hi, theta, false)
  | S k =>
      let residual := cdf theta - q in
      if Rleb (Rabs residual) (/ 10 ^ 12) && Rleb (hi - lo) (/ 10 ^ 10) then (lo, hi, theta, true)
      else
        let lo' := if Rltb 0 residual then lo else Rmax lo theta in
        let hi' := if Rltb 0 residual then Rmin hi theta else hi in
        if Rleb (pdf theta) 0 then ws_newton cdf pdf q k lo' hi' (1 / 2 * (lo' + hi'))
        else
          let new := theta - residual / pdf theta in
          let theta' := if Rleb new lo' || Rleb hi' new then 1 / 2 * (lo' + hi') else new in
          if Rleb (hi' - lo') (/ 10 ^ 10) then (lo', hi', theta', true)
          else ws_newton cdf pdf q k lo' hi' theta'
  end.
(** distributions.py:7693-7700. *)
Fixpoint ws_bisect (cdf : R -> R) (q : R) (n : nat) (lo hi : R) : R :=
  match n with
  | O => 1 / 2 * (lo + hi)
  | S k =>
      let mid := 1 / 2 * (lo + hi) in
      if Rltb q (cdf mid) then ws_bisect cdf q k lo mid else ws_bisect cdf q k mid hi
  end.
(** distributions.py:7630-7708 for 0 < q < 1. *)
Definition ws_ppf (delta alpha beta gamma q : R) : R :=
  if isclose_tol 0 (/ 10 ^ 12) q 0 then 0
  else if isclose_tol 0 (/ 10 ^ 12) q 1 then 2 * PI
  else
    let cdf := ws_cdf delta alpha beta gamma in
    let '(lo, hi, theta, stopped) := ws_newton cdf (ws_pdf delta alpha beta gamma) q 60 0 (2 * PI) (q * (2 * PI)) in
    let theta := if stopped then theta else ws_bisect cdf q 30 lo hi in
    pymod (theta + 2 * PI) (2 * PI).

(** distributions.py:8045-8078 [_wrapstable_sample_linear] for one draw [V] from the uniform
    distribution on (-pi/2, pi/2) and one [W] from the standard exponential distribution. *)
Definition ws_linear (delta alpha beta gamma V W : R) : R :=
  if Rltb ws_atol (Rabs (alpha - 1)) then
    let tan_term := tan (1 / 2 * PI * alpha) in
    let theta0 := atan (beta * tan_term) / alpha in
    let factor := Rpower (1 + (beta * tan_term) ^ 2) (1 / (2 * alpha)) in
    let delta_s1 := delta - gamma * beta * tan_term in
    let part1 := sin (alpha * (V + theta0)) / Rpower (cos V) (1 / alpha) in
    let part2 := Rpower (cos (V - alpha * (V + theta0)) / W) ((1 - alpha) / alpha) in
    let x_s1 := gamma * factor * part1 * part2 + delta_s1 in
    x_s1 + (delta - delta_s1)
  else
    let factor := 2 / PI in
    let delta_s1 := delta - factor * beta * gamma * ln gamma in
    let term := (1 / 2 * PI + beta * V) * tan V
                - beta * ln ((1 / 2 * PI * W * cos V) / (1 / 2 * PI + beta * V)) in
    let x_s1 := gamma * factor * term + delta_s1 in
    x_s1 + (delta - delta_s1).
(** distributions.py:7741-7750. *)
Definition ws_rvs (delta alpha beta gamma V W : R) : R := pymod (ws_linear delta alpha beta gamma V W) (2 * PI).

(** distributions.py:7801-7849: the moment estimates (delta, alpha, beta, gamma) from the first
    two trigonometric moments (C1, S1), (C2, S2); default bounds. *)
Definition ws_moments (C1 S1 C2 S2 : R) : R * R * R * R :=
  let r1 := clip (hypot C1 S1) (/ 10 ^ 9) (1 - / 10 ^ 9) in
  let r2 := clip (hypot C2 S2) (/ 10 ^ 9) (1 - / 10 ^ 9) in
  let '(alpha, gamma) :=
    if Rleb (1 - / 10 ^ 6) r1 || Rleb (1 - / 10 ^ 6) r2 then (1, / 1000)
    else
      let y1 := ln (- ln r1) in
      let y2 := ln (- ln r2) in
      let alpha := clip ((y2 - y1) / ln 2) (/ 1000) 2 in
      (alpha, clip (exp (y1 / alpha)) (/ 10 ^ 6) 10) in
  let phi1 := arctan2 S1 C1 in
  let phi2_raw := arctan2 S2 C2 in
  let phi2 := phi2_raw + 2 * PI * IZR (rint ((2 * phi1 - phi2_raw) / (2 * PI))) in
  let '(beta, delta) :=
    if Rleb (Rabs (alpha - 1)) ws_atol then
      let B1 := 2 / PI * gamma * ln gamma in
      let B2 := 2 / PI * (gamma * 2) * ln (gamma * 2) in
      let denom := B2 - 2 * B1 in
      if Rltb (Rabs denom) (/ 10 ^ 8) then (0, phi1)
      else
        let beta := clip ((phi2 - 2 * phi1) / denom) (- (99 / 100)) (99 / 100) in
        (beta, phi1 - beta * B1)
    else
      let A := tan (1 / 2 * PI * alpha) in
      let B1 := Rpower gamma alpha - gamma in
      let B2 := Rpower (gamma * 2) alpha - gamma * 2 in
      let denom := A * (B2 - 2 * B1) in
      if Rltb (Rabs denom) (/ 10 ^ 8) then (0, phi1)
      else
        let beta := clip ((phi2 - 2 * phi1) / denom) (- (99 / 100)) (99 / 100) in
        (beta, phi1 - beta * A * B1) in
  (pymod delta (2 * PI), alpha, beta, gamma).
(** distributions.py:7784-7860: fit(method="moments"); data and weights paired up. *)
Definition ws_fit_moments (s : wsample) : res (R * R * R * R) :=
  match s with
  | [] => Err ValueError
  | _ =>
      if existsb (fun p => Rltb (snd p) 0) s then Err ValueError
      else if Rleb (wtotal s) 0 then Err ValueError
      else
        let s := map (fun p => (wrap_angles (fst p), snd p)) s in
        let C p := Rsum (map (fun d => snd d * cos (p * fst d)) s) / wtotal s in
        let S p := Rsum (map (fun d => snd d * sin (p * fst d)) s) / wtotal s in
        Ok (ws_moments (C 1) (S 1) (C 2) (S 2))
  end.
