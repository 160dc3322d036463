(** Model of katojones (distributions.py:8080-8855): cdf, ppf, trigonometric moments, the
    moment conversions and the method-of-moments fit.  [kj], [kj_argcheck], [kj_pdf] and the
    auxiliary parameterisation are in EmModel.  Scalar arguments and parameters; the series
    cache (8647-8660) only stores what it recomputes and is dropped. *)
From Verif Require Import Prelude EmModel NpModel UtilsModel DescModel DistModel.

(** distributions.py:81-86. *)
Definition kj_tol : R := / 10 ^ 12.
Definition kj_max_terms : nat := Z.to_nat 5000.
(** distributions.py:8679: the bound on the terms from number P on. *)
Definition kj_tail (gamma rho : R) (P : nat) : R :=
  gamma / INR (Nat.max P 1) * rho ^ (P - 1) / Rmax (/ 10 ^ 12) (1 - rho).
(** distributions.py:8677-8683: the number of terms. *)
Fixpoint kj_count (gamma rho : R) (fuel P : nat) : nat :=
  match fuel with
  | O => P
  | S k => if Rleb (kj_tail gamma rho P) kj_tol then P else kj_count gamma rho k (S P)
  end.
Definition kj_terms (gamma rho : R) : nat := Nat.min (kj_count gamma rho kj_max_terms 1) kj_max_terms.
(** distributions.py:8685-8688. *)
Definition kj_coeff (gamma rho : R) (p : nat) : R := gamma * rho ^ (p - 1) / INR p.
Definition kj_phase (mu lam : R) (p : nat) : R := mod2pi (INR p * mu + (INR p - 1) * lam).
(** distributions.py:8662-8716 [_compute_series_terms], [_evaluate_cdf_series]. *)
Definition kj_series (mu gamma rho lam theta : R) : R :=
  if Rleb gamma kj_tol || Rleb rho kj_tol then theta / (2 * PI)
  else
    let ps := seq 1 (kj_terms gamma rho) in
    let anchor := - (1 / PI) * Rsum (map (fun p => kj_coeff gamma rho p * sin (kj_phase mu lam p)) ps) in
    let sum := Rsum (map (fun p => kj_coeff gamma rho p * sin (INR p * theta - kj_phase mu lam p)) ps) in
    theta / (2 * PI) + 1 / PI * sum - anchor.
(** The clipping of the parameters at 8210-8213 and 8296-8299. *)
Definition kj_clean (c : kj) : kj :=
  {| kj_mu := mod2pi (kj_mu c); kj_gamma := clip (kj_gamma c) 0 (1 - / 10 ^ 12);
     kj_rho := clip (kj_rho c) 0 (1 - / 10 ^ 12); kj_lam := mod2pi (kj_lam c) |}.
(** 8319-8322 [cdf_single]; also 8218-8222. *)
Definition kj_single (c : kj) (theta : R) : R :=
  clip (pymod (kj_series (kj_mu c) (kj_gamma c) (kj_rho c) (kj_lam c) theta) 1) 0 1.
(** distributions.py:8205-8228. *)
Definition kj_cdf (c : kj) (x : R) : R :=
  let c := kj_clean c in
  let v := if Rleb (kj_gamma c) kj_tol then clip (x / (2 * PI)) 0 1 else kj_single c x in
  let v := if isclose_tol (/ 100000) (/ 10 ^ 12) x 0 then 0 else v in
  if isclose_tol (/ 100000) (/ 10 ^ 12) x (2 * PI) then 1 else v.

(** distributions.py:8337-8362: Newton with a bracket; the flag says that the loop was left
    by break. *)
Fixpoint kj_newton (c : kj) (q : R) (n : nat) (lo hi theta : R) : bool * R * R * R :=
  match n with
  | O => (false, lo, hi, theta)
  | S k =>
      let residual := kj_single c theta - q in
      if Rleb (Rabs residual) (/ 10 ^ 12) && Rleb (hi - lo) (/ 10 ^ 10) then (true, lo, hi, theta)
      else
        let hi := if Rltb 0 residual then Rmin hi theta else hi in
        let lo := if Rltb 0 residual then lo else Rmax lo theta in
        let p := kj_pdf c theta in
        if Rleb p 0 then kj_newton c q k lo hi ((1 / 2) * (lo + hi))
        else
          let cand := theta - residual / p in
          let theta := if Rleb cand lo || Rleb hi cand then (1 / 2) * (lo + hi) else cand in
          if Rleb (hi - lo) (/ 10 ^ 10) then (true, lo, hi, theta) else kj_newton c q k lo hi theta
  end.
(** 8364-8370. *)
Fixpoint kj_bisect (c : kj) (q : R) (n : nat) (lo hi : R) : R :=
  match n with
  | O => (1 / 2) * (lo + hi)
  | S k =>
      let mid := (1 / 2) * (lo + hi) in
      if Rltb q (kj_single c mid) then kj_bisect c q k lo mid else kj_bisect c q k mid hi
  end.
(** distributions.py:8295-8376 for a probability in [0, 1]. *)
Definition kj_ppf (c : kj) (q : R) : R :=
  let c := kj_clean c in
  if Rleb (kj_gamma c) kj_tol then 2 * PI * q
  else if isclose_tol (/ 100000) (/ 10 ^ 12) q 0 then 0
  else if isclose_tol (/ 100000) (/ 10 ^ 12) q 1 then 2 * PI
  else
    let '(stopped, lo, hi, theta) := kj_newton c q 60 0 (2 * PI) (q * (2 * PI)) in
    pymod (if stopped then theta else kj_bisect c q 30 lo hi) (2 * PI).

(** distributions.py:8406-8432 [trig_moment] for an integer p: real and imaginary part. *)
Definition kj_trig_moment (c : kj) (p : Z) : R * R :=
  if (p =? 0)%Z then (1, 0)
  else
    let k := Z.abs_nat p in
    let mag := if Nat.eqb k 1 then kj_gamma c else kj_gamma c * kj_rho c ^ (k - 1) in
    let angle := INR k * kj_mu c + (INR k - 1) * kj_lam c in
    if (p <? 0)%Z then (mag * cos angle, - (mag * sin angle)) else (mag * cos angle, mag * sin angle).

(** distributions.py:8490-8507 [_project_second_order]. *)
Definition kj_project (gamma alpha2 beta2 : R) : R * R :=
  let radius := gamma * (1 - gamma) in
  let center := gamma * gamma in
  let va := alpha2 - center in
  let distance := hypot va beta2 in
  if Rleb radius 0 then (center, 0)
  else if Rleb distance radius then (alpha2, beta2)
  else if Reqb distance 0 then (center + radius, 0)
  else let scale := radius / distance in (center + va * scale, beta2 * scale).
(** distributions.py:8509-8564 [convert_alpha2_beta2]. *)
Definition kj_to_rho_lam (gamma alpha2 beta2 : R) (verify : bool) : res (R * R) :=
  if negb (Rleb 0 gamma && Rltb gamma 1) then Err ValueError
  else
    let radius_sq := (gamma * (1 - gamma)) ^ 2 in
    let dist_sq := (alpha2 - gamma * gamma) ^ 2 + beta2 ^ 2 in
    if verify && Rltb (radius_sq + / 10 ^ 12) dist_sq then Err ValueError
    else
      let r2 := hypot alpha2 beta2 in
      if Rleb gamma (/ 10 ^ 12) then
        if verify && Rltb (/ 10 ^ 12) r2 then Err ValueError else Ok (0, 0)
      else
        let rho := clip (r2 / gamma) 0 (1 - / 10 ^ 12) in
        Ok (rho, if Rleb r2 (/ 10 ^ 12) then 0 else mod2pi (arctan2 beta2 alpha2)).
(** distributions.py:8566-8608 [convert_rho_lambda]. *)
Definition kj_to_alpha_beta (gamma rho lam : R) (verify : bool) : res (R * R) :=
  if negb (Rleb 0 gamma && Rltb gamma 1) then Err ValueError
  else if negb (Rleb 0 rho && Rltb rho 1) then Err ValueError
  else if verify && Rltb ((1 - gamma) ^ 2 + / 10 ^ 12) (kj_constraint gamma rho lam) then Err ValueError
  else Ok (gamma * rho * cos lam, gamma * rho * sin lam).

(** distributions.py:8434-8488 [_prepare_data_weights], [_fit_moments]; data and weights
    paired up.  The estimates are (mu, gamma, rho, lam).  A NaN mean makes alpha2 and beta2
    NaN, which passes through the projection. *)
Definition kj_fit_moments (s : wsample) : res (fl * R * fl * fl) :=
  match s with
  | [] => Err ValueError
  | _ =>
      if existsb (fun p => Rltb (snd p) 0) s then Err ValueError
      else if Rleb (wtotal s) 0 then Err ValueError
      else
        let s := map (fun p => (wrap_angles (fst p), snd p)) s in
        let (m, r1) := circ_mean_and_r_s s in
        let gamma := clip r1 0 (1 - / 10 ^ 9) in
        match m with
        | Fin mu =>
            let alpha2 := Rsum (map (fun p => snd p * cos (2 * angmod0 (fst p - mu))) s) / wtotal s in
            let beta2 := Rsum (map (fun p => snd p * sin (2 * angmod0 (fst p - mu))) s) / wtotal s in
            let (a, b) := kj_project gamma alpha2 beta2 in
            if Rltb gamma (/ 10 ^ 12) then Ok (Fin (wrap_direction mu), gamma, Fin 0, Fin 0)
            else
              let rho := clip (hypot a b / Rmax gamma (/ 10 ^ 12)) 0 (1 - / 10 ^ 9) in
              let lam := if Rltb rho (/ 10 ^ 12) then 0 else mod2pi (arctan2 b a) in
              Ok (Fin (wrap_direction mu), gamma, Fin rho, Fin lam)
        | _ => if Rltb gamma (/ 10 ^ 12) then Ok (NaN, gamma, Fin 0, Fin 0) else Ok (NaN, gamma, NaN, NaN)
        end
  end.
