(** Model of wrapnorm (distributions.py:2247-2818).  Scalar arguments and parameters.
    [ndtr] and [ndtri] are scipy.special's normal distribution and quantile functions. *)
From Verif Require Import Prelude NpModel UtilsModel DescModel DistModel.

(** distributions.py:2284-2294. *)
Definition wn_ok (mu rho : R) : bool := Rleb 0 mu && Rleb mu (2 * PI) && Rltb 0 rho && Rltb rho 1.
(** distributions.py:2296-2301. *)
Definition wn_pdf (mu rho x : R) : R :=
  (1 + 2 * Rsum (map (fun p => rho ^ (p ^ 2) * cos (INR p * (x - mu))) (seq 1 29))) / (2 * PI).

(** distributions.py:2403-2404, 2485-2486. *)
Definition wn_sigma (rho : R) : R := sqrt (- 2 * ln (clip rho ftiny (1 - / 10 ^ 15))).
(** distributions.py:2349-2359: the contribution of the turn [shift] to cdf and pdf. *)
Definition wn_delta (ndtr : R -> R) (mu sigma theta shift : R) : R :=
  ndtr ((theta - mu + shift) * (1 / sigma)) - ndtr ((- mu + shift) * (1 / sigma)).
Definition wn_gauss (mu sigma theta shift : R) : R :=
  / sqrt (2 * PI) * (1 / sigma) * exp (- (1 / 2) * ((theta - mu + shift) * (1 / sigma)) ^ 2).
(** distributions.py:2346-2368; [fuel] counts the remaining iterations of 500. *)
Fixpoint wn_loop (ndtr : R -> R) (mu sigma theta : R) (fuel k : nat) (cdf pdf : R) : R * R :=
  match fuel with
  | O => (cdf, pdf)
  | S f =>
      let shift := 2 * PI * INR k in
      let pos := wn_delta ndtr mu sigma theta shift in
      let neg := wn_delta ndtr mu sigma theta (- shift) in
      let pdf := pdf + wn_gauss mu sigma theta shift + wn_gauss mu sigma theta (- shift) in
      let cdf := cdf + (pos + neg) in
      if Rltb (/ 10 ^ 13) (Rmax (Rabs pos) (Rabs neg)) then wn_loop ndtr mu sigma theta f (S k) cdf pdf
      else (cdf, pdf)
  end.
(** distributions.py:2329-2375 [_wrapnorm_cdf_pdf] for one angle.  (For an array the loop stops
    when every element is done.) *)
Definition wn_cdf_pdf (ndtr : R -> R) (mu sigma theta : R) : R * R :=
  let '(c, p) := wn_loop ndtr mu sigma theta 500 1 (wn_delta ndtr mu sigma theta 0) (wn_gauss mu sigma theta 0) in
  (clip c 0 1, Rmax p 0).
(** distributions.py:2377-2413 for 0 < x < 2 pi. *)
Definition wn_cdf (ndtr : R -> R) (mu rho x : R) : R :=
  if Rleb rho (/ 10 ^ 12) then (if close_2pi x then 1 else x / (2 * PI))
  else
    let v := fst (wn_cdf_pdf ndtr mu (wn_sigma rho) x) in
    if close_2pi x then 1 else v.

(** distributions.py:2503-2526: lower, upper and theta after the Newton steps. *)
Fixpoint wn_newton (G : R -> R * R) (q : R) (n : nat) (L H theta : R) : R * R * R :=
  let delta := fst (G theta) - q in
  let L := if Rleb delta 0 then theta else L in
  let H := if Rltb 0 delta then theta else H in
  match n with
  | O => (L, H, theta)
  | S k =>
      if Rleb (Rabs delta) (/ 10 ^ 12) then (L, H, theta)
      else
        let step := clip (delta / Rmax (snd (G theta)) (/ 10 ^ 15)) (- PI) PI in
        let next := theta - step in
        let next := if Rleb next L || Rleb H next then (1 / 2) * (L + H) else next in
        wn_newton G q k L H (clip next 0 (2 * PI))
  end.
(** distributions.py:2533-2545: bisection. *)
Fixpoint wn_bisect (G : R -> R * R) (q : R) (n : nat) (L H : R) : R :=
  match n with
  | O => (1 / 2) * (L + H)
  | S k =>
      let mid := (1 / 2) * (L + H) in
      let delta := fst (G mid) - q in
      if Rltb (/ 10 ^ 12) (Rabs delta)
      then (if Rltb 0 delta then wn_bisect G q k L mid else wn_bisect G q k mid H)
      else mid
  end.
(** distributions.py:2445-2554 for 0 < q < 1.  nextafter(2 pi, 0) is one unit in the last place
    below 2 pi. *)
Definition wn_ppf (ndtr ndtri : R -> R) (mu rho q : R) : R :=
  let mu := pymod mu (2 * PI) in
  if Rleb rho (/ 10 ^ 12) then 2 * PI * q
  else
    let sigma := wn_sigma rho in
    if Rleb sigma (/ 10 ^ 12) then pymod mu (2 * PI)
    else
      let theta := clip (2 * PI * q) (/ 10 ^ 12) (2 * PI - / 10 ^ 12) in
      let theta :=
        if Rltb sigma 1 then
          let guess := mu + sigma * ndtri (clip q (/ 10 ^ 12) (1 - / 10 ^ 12)) in
          (1 / 2) * theta + (1 / 2) * pymod guess (2 * PI)
        else theta in
      let G := wn_cdf_pdf ndtr mu sigma in
      let '(L, H, theta) := wn_newton G q 6 0 (2 * PI) theta in
      let theta := if Rltb (/ 10 ^ 12) (Rabs (fst (G theta) - q)) then wn_bisect G q 40 L H else theta in
      let theta := clip theta 0 (2 * PI) in
      if Rleb (2 * PI - / 10 ^ 12) theta then 2 * PI - / 2 ^ 50 else theta.

(** distributions.py:2592-2620: one draw, from a uniform number [u] on [0, 1) and a standard
    normal number [z]. *)
Definition wn_rvs (mu rho u z : R) : R :=
  let mu := pymod mu (2 * PI) in
  if Rleb (clip rho ftiny (1 - / 10 ^ 15)) (/ 10 ^ 12) then 2 * PI * u
  else
    let sigma := wn_sigma rho in
    if Rltb sigma (/ 10 ^ 12) then mu
    else pymod (mu + sigma * z) (2 * PI).

(** distributions.py:2690-2711, 2777-2779: fit(method="moments"). *)
Definition wn_fit_moments (s : wsample) : res (R * R) :=
  match s with
  | [] => Err ValueError
  | _ =>
      if existsb (fun p => Rltb (snd p) 0) s then Err ValueError
      else if Rleb (wtotal s) 0 then Err ValueError
      else
        let s := map (fun p => (wrap_angles (fst p), snd p)) s in
        let '(m, r) := circ_mean_and_r_s s in
        let m := match m with Fin m => m | _ => 0 end in
        Ok (wrap_direction (pymod m (2 * PI)), clip r (/ 10 ^ 9) (1 - / 10 ^ 9))
  end.
