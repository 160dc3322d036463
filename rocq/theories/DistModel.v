(** Model of pycircstat2/distributions.py: the public pdf, cdf and ppf of the base class and
    circularuniform, triangular, cardioid, wrapcauchy.  Scalar arguments and parameters. *)
From Verif Require Import Prelude NpModel.

(** ** The base class and scipy's public methods *)

(** distributions.py:206-232 [_wrap_angles] with the support [0, 2 pi].  The tolerance
    eps * 2 pi around 2 pi is one unit in the last place there and is idealised to equality. *)
Definition wrap_angles (x : R) : R := if Reqb x (2 * PI) then 2 * PI else pymod x (2 * PI).
(** distributions.py:480-486 [_wrap_direction]. *)
Definition wrap_direction (x : R) : R := wrap_angles x.

(** distributions.py:404-414 and scipy's rv_continuous.pdf / cdf / ppf with loc = 0 and
    scale = 1: NaN when [_argcheck] fails; [_pdf] is used on the closed support and [_cdf]
    strictly inside it; ppf(0) and ppf(1) are the ends of the support. *)
Definition public_pdf (ok : bool) (pdf : R -> R) (x : R) : fl :=
  let y := wrap_angles x in
  if negb ok then NaN
  else if Rleb 0 y && Rleb y (2 * PI) then Fin (pdf y) else Fin 0.
Definition public_cdf (ok : bool) (cdf : R -> R) (x : R) : fl :=
  let y := wrap_angles x in
  if negb ok then NaN
  else if Rleb (2 * PI) y then Fin 1
  else if Rltb 0 y then Fin (cdf y)
  else Fin 0.
Definition public_ppf (ok : bool) (ppf : R -> R) (q : R) : fl :=
  if negb ok then NaN
  else if Rltb 0 q && Rltb q 1 then Fin (ppf q)
  else if Reqb q 0 then Fin 0
  else if Reqb q 1 then Fin (2 * PI)
  else NaN.

(** np.isclose(x, 2 pi) with the default tolerances. *)
Definition close_2pi (x : R) : bool := isclose x (2 * PI).
(** np.isclose(rho, 0, atol): rtol multiplies |0|. *)
Definition close_0 (atol rho : R) : bool := isclose_tol (/ 100000) atol rho 0.
(** np.finfo(float).eps and np.finfo(float).tiny. *)
Definition feps : R := / 2 ^ 52.
Definition ftiny : R := / 2 ^ 1022.

(** ** circularuniform *)
(** distributions.py:776-777, 799-800, 822-823. *)
Definition cu_pdf (x : R) : R := 1 / (2 * PI).
Definition cu_cdf (x : R) : R := x / (2 * PI).
Definition cu_ppf (q : R) : R := 2 * PI * q.

(** ** triangular *)
(** distributions.py:910-912. *)
Definition tri_ok (rho : R) : bool := Rleb 0 rho && Rleb rho (4 / PI ^ 2).
(** distributions.py:914-917. *)
Definition tri_pdf (rho x : R) : R :=
  (4 - PI ^ 2 * rho + 2 * PI * rho * Rabs (PI - x)) / 8 / PI.
(** distributions.py:942-973. *)
Definition tri_cdf (rho x : R) : R :=
  if Rleb (2 * PI) x then 1
  else if Rleb 0 x && Rleb x PI then ((4 + PI ^ 2 * rho) * x - PI * rho * x ^ 2) / (8 * PI)
  else if Rltb PI x && Rltb x (2 * PI)
  then 1 / 2 + ((4 - 3 * PI ^ 2 * rho) * (x - PI) + PI * rho * (x ^ 2 - PI ^ 2)) / (8 * PI)
  else 0.
(** distributions.py:1004-1055. *)
Definition tri_ppf (rho q : R) : R :=
  let raw :=
    if close_0 (/ 10 ^ 12) rho then q * (2 * PI)
    else if Rleb q (1 / 2) then
      let b := - (4 + PI ^ 2 * rho) / PI in
      let disc := Rmax (b ^ 2 - 4 * rho * (8 * q)) 0 in
      (- b - sqrt disc) / (2 * rho)
    else
      let b := (4 - 3 * PI ^ 2 * rho) / PI in
      let c := 2 * PI ^ 2 * rho - 8 * q in
      let disc := Rmax (b ^ 2 - 4 * rho * c) 0 in
      (- b + sqrt disc) / (2 * rho) in
  clip raw 0 (2 * PI - feps).

(** distributions.py:1155-1264 [triangular.fit] with method="mle": data and weights paired
    up.  [root] is scipy's brentq on the score over the given bracket; the returned estimate
    only. *)
Definition tri_c (x : R) : R := 2 * PI * Rabs (PI - pymod x (2 * PI)) - PI ^ 2.
Definition tri_score (s : list (R * R)) (rho : R) : R :=
  Rsum (map (fun p => snd p * (tri_c (fst p) / (4 + rho * tri_c (fst p)))) s).
Definition tri_hi : R := 4 / PI ^ 2 - / 10 ^ 12.
Definition tri_fit_mle (root : (R -> R) -> R -> R -> R) (s : list (R * R)) : res R :=
  if existsb (fun p => Rltb (snd p) 0) s then Err ValueError
  else if Rleb (Rsum (map snd s)) 0 then Err ValueError
  else if Rleb (tri_score s 0) 0 then Ok 0
  else if Rleb 0 (tri_score s tri_hi) then Ok tri_hi
  else Ok (root (tri_score s) 0 tri_hi).
(** method="moments": the weighted mean of cos, clipped to the parameter range. *)
Definition tri_fit_moments (s : list (R * R)) : res R :=
  if existsb (fun p => Rltb (snd p) 0) s then Err ValueError
  else if Rleb (Rsum (map snd s)) 0 then Err ValueError
  else Ok (clip (Rsum (map (fun p => snd p / Rsum (map snd s) * cos (pymod (fst p) (2 * PI))) s))
                0 (4 / PI ^ 2)).

(** ** cardioid *)
(** distributions.py:1300-1310. *)
Definition car_ok (mu rho : R) : bool :=
  Rleb 0 mu && Rleb mu (2 * PI) && Rleb 0 rho && Rleb rho (1 / 2).
(** distributions.py:1312-1313, 1339-1340. *)
Definition car_pdf (mu rho x : R) : R := (1 + 2 * rho * cos (x - mu)) / 2 / PI.
Definition car_cdf (mu rho x : R) : R :=
  (x + 2 * rho * (sin (x - mu) + sin mu)) / (2 * PI).
(** distributions.py:1366-1463 [_solve_inverse_cdf] for one probability.  Newton steps (the
    first one a Halley step when rho > 0.25) stop as soon as the residual is at most 1e-12
    (1400-1402: a converged entry keeps its angle while others move). *)
Definition car_delta (mu rho q theta : R) : R :=
  (theta + 2 * rho * (sin (theta - mu) + sin mu)) / (2 * PI) - q.
Definition car_step (mu rho q : R) (halley : bool) (theta : R) : R :=
  let delta := car_delta mu rho q theta in
  let d1 := (1 + 2 * rho * cos (theta - mu)) / (2 * PI) in
  let d2 := (- 2 * rho * sin (theta - mu)) / (2 * PI) in
  let newton := if Rltb (/ 10 ^ 14) (Rabs d1) then delta / d1 else 0 in
  let denom := 2 * d1 ^ 2 - delta * d2 in
  let step := if halley && Rltb (/ 10 ^ 14) (Rabs denom) then 2 * delta * d1 / denom else newton in
  pymod (theta - clip step (- PI) PI) (2 * PI).
Fixpoint car_newton (mu rho q : R) (n : nat) (halley : bool) (theta : R) : R :=
  match n with
  | O => theta
  | S k =>
      if Rleb (Rabs (car_delta mu rho q theta)) (/ 10 ^ 12) then theta
      else car_newton mu rho q k false (car_step mu rho q halley theta)
  end.
(** 1440-1451: bisection on [0, 2 pi]. *)
Fixpoint car_bisect (mu rho q : R) (n : nat) (low high : R) : R * R :=
  match n with
  | O => (low, high)
  | S k =>
      let mid := (1 / 2) * (low + high) in
      let f_mid := (mid + 2 * rho * (sin (mid - mu) + sin mu)) / (2 * PI) in
      if Rleb f_mid q then car_bisect mu rho q k mid high else car_bisect mu rho q k low mid
  end.
Definition car_solve (mu rho q : R) : R :=
  let value :=
    if close_0 (/ 10 ^ 15) rho then 2 * PI * q
    else
      let theta0 := pymod (mu + 2 * PI * (q - 1 / 2)) (2 * PI) in
      let halley := Rltb (1 / 4) rho in
      let theta := car_newton mu rho q (if halley then 6 else 3)%nat halley theta0 in
      let theta :=
        if Rltb (10 * / 10 ^ 12) (Rabs (car_delta mu rho q theta))
        then let (low, high) := car_bisect mu rho q 32 0 (2 * PI) in (1 / 2) * (low + high)
        else theta in
      pymod theta (2 * PI) in
  if isclose_tol 0 (/ 10 ^ 12) q 1 then 2 * PI else value.
(** distributions.py:1465-1491. *)
Definition car_ppf (mu rho q : R) : R := car_solve (pymod mu (2 * PI)) rho q.

(** distributions.py:1646-1669: the objective handed to the optimiser and its gradient;
    data and weights paired up.  PInf when a density factor is not positive. *)
Definition car_den (mu rho x : R) : R := 1 + 2 * rho * cos (x - mu).
Definition car_nll (s : list (R * R)) (mu rho : R) : fl :=
  if negb (Rleb 0 rho && Rleb rho (1 / 2)) then PInf
  else if existsb (fun p => Rleb (car_den mu rho (fst p)) 0) s then PInf
  else Fin (- Rsum (map (fun p => snd p * ln (car_den mu rho (fst p))) s)
            + Rsum (map snd s) * ln (2 * PI)).
Definition car_grad (s : list (R * R)) (mu rho : R) : R * R :=
  if existsb (fun p => Rleb (car_den mu rho (fst p)) 0) s then (0, 0)
  else (- 2 * rho * Rsum (map (fun p => snd p / car_den mu rho (fst p) * sin (fst p - mu)) s),
        - 2 * Rsum (map (fun p => snd p / car_den mu rho (fst p) * cos (fst p - mu)) s)).

(** ** wrapcauchy *)
(** distributions.py:2848-2858. *)
Definition wc_ok (mu rho : R) : bool :=
  Rleb 0 mu && Rleb mu (2 * PI) && Rleb 0 rho && Rltb rho 1.
(** distributions.py:2860-2861. *)
Definition wc_pdf (mu rho x : R) : R :=
  (1 - rho ^ 2) / (2 * PI * (1 + rho ^ 2 - 2 * rho * cos (x - mu))).
(** distributions.py:2973-2978 [_wrapcauchy_H]. *)
Definition wc_H (phi A : R) : R :=
  1 / 2 + arctan2 (A * sin ((1 / 2) * phi)) (cos ((1 / 2) * phi)) / PI.
(** (t + pi) % (2 pi) - pi. *)
Definition centre (t : R) : R := pymod (t + PI) (2 * PI) - PI.
(** distributions.py:2910-2950. *)
Definition wc_cdf (mu rho x : R) : R :=
  let wrapped := wrap_angles x in
  let rho_val := clip rho ftiny (1 - / 10 ^ 15) in
  let A := (1 + rho_val) / (1 - rho_val) in
  let phi := centre (wrapped - mu) in
  let base_phi := centre (- mu) in
  let diff := wc_H phi A - wc_H base_phi A in
  let diff := if Rltb diff (- / 10 ^ 12) then diff + 1 else diff in
  let diff := if Rltb 1 diff then diff - 1 else diff in
  if close_2pi wrapped then 1 else clip diff 0 1.
(** distributions.py:2980-3024. *)
Definition wc_ppf (mu rho q : R) : R :=
  let mu_val := pymod mu (2 * PI) in
  if Rleb q 0 then 0
  else if Rleb 1 q then 2 * PI
  else if Rleb rho (/ 10 ^ 15) then pymod (2 * PI * q) (2 * PI)
  else
    let A := (1 + rho) / (1 - rho) in
    let s := pymod (wc_H (centre (- mu_val)) A + q) 1 in
    let alpha := PI * (clip s (/ 10 ^ 15) (1 - / 10 ^ 15) - 1 / 2) in
    let phi := 2 * atan (tan alpha / A) in
    pymod (mu_val + phi) (2 * PI).
(** distributions.py:3041-3097 [_rvs] for one draw [u] of rng.uniform(-pi, pi) and one draw
    [v] of rng.uniform(0, 2 pi): z = e^(iu), w = (z + rho e^(i mu)) / (1 + rho e^(-i mu) z),
    the sample is the argument of w.  The near-pole fallback (|denominator| < 1e-15) cannot be
    reached: |denominator| >= 1 - rho and isclose(rho, 1) was handled before. *)
Definition wc_rvs (mu rho u v : R) : R :=
  if close_0 (/ 10 ^ 15) rho then v
  else if isclose_tol (/ 100000) (/ 10 ^ 15) rho 1 then pymod mu (2 * PI)
  else
    let nr := cos u + rho * cos mu in let ni := sin u + rho * sin mu in
    let dr := 1 + rho * cos (u - mu) in let di := rho * sin (u - mu) in
    let m := dr ^ 2 + di ^ 2 in
    let wr := (nr * dr + ni * di) / m in let wi := (ni * dr - nr * di) / m in
    pymod (arctan2 wi wr) (2 * PI).
(** distributions.py:3184-3205: the objective and its gradient. *)
Definition wc_den (mu rho x : R) : R := Rmax (1 + rho ^ 2 - 2 * rho * cos (x - mu)) (/ 10 ^ 15).
Definition wc_nll (s : list (R * R)) (mu rho : R) : fl :=
  if negb (Rleb 0 rho && Rltb rho 1) then PInf
  else Fin (- Rsum (map (fun p => snd p * (ln (1 + - rho ^ 2) - ln (2 * PI) - ln (wc_den mu rho (fst p)))) s)).
Definition wc_grad (s : list (R * R)) (mu rho : R) : R * R :=
  (- 2 * rho * Rsum (map (fun p => snd p / wc_den mu rho (fst p) * sin (fst p - mu)) s),
   Rsum (map snd s) * (2 * rho / Rmax (1 - rho ^ 2) (/ 10 ^ 15))
   + Rsum (map (fun p => snd p / wc_den mu rho (fst p) * (2 * rho - 2 * cos (fst p - mu))) s)).
