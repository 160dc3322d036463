(** Model of vonmises (distributions.py:3262-3902).  Scalar arguments and parameters.
    [iv n kappa] is scipy.special.iv for integer order, i0 and i1 its first two; it is exact,
    so it is never infinite or 0 (the branch 3409-3410 is not taken).  [num] is the value of
    the quadrature [_cdf_from_pdf], [ndtri] the normal quantile. *)
From Verif Require Import Prelude NpModel UtilsModel DescModel DistModel.

(** distributions.py:3317-3326. *)
Definition von_ok (mu kappa : R) : bool := Rleb 0 mu && Rleb mu (2 * PI) && Rltb 0 kappa.
(** distributions.py:3328-3329, 3355-3356. *)
Definition von_pdf (iv : nat -> R -> R) (mu kappa x : R) : R := exp (kappa * cos (x - mu)) / (2 * PI * iv 0%nat kappa).
Definition von_logpdf (iv : nat -> R -> R) (mu kappa x : R) : R := kappa * cos (x - mu) - ln (2 * PI * iv 0%nat kappa).

(** distributions.py:3421-3433: the sums for phi and base_phi, None without convergence. *)
Fixpoint von_loop (iv : nat -> R -> R) (kappa phi base : R) (fuel n : nat) (sum sumb : R) : option (R * R) :=
  match fuel with
  | O => None
  | S k =>
      let coeff := iv n kappa / (iv 0%nat kappa * INR n) in
      let term := coeff * sin (INR n * phi) in
      let sum := sum + term in
      let sumb := sumb + coeff * sin (INR n * base) in
      if Rltb (Rabs term) (/ 10 ^ 12) && Rltb (Rabs coeff) (/ 10 ^ 12) then Some (sum, sumb)
      else von_loop iv kappa phi base k (S n) sum sumb
  end.
(** distributions.py:3379-3452 for 0 < x < 2 pi. *)
Definition von_cdf (iv : nat -> R -> R) (num : R -> R -> R -> R) (mu kappa x : R) : R :=
  if Rltb kappa (/ 10 ^ 9) then (if close_2pi x then 1 else x / (2 * PI))
  else
    let phi := pymod (x - mu + PI) (2 * PI) - PI in
    let base := pymod (- mu + PI) (2 * PI) - PI in
    match von_loop iv kappa phi base 500 1 0 0 with
    | None => num x mu kappa
    | Some (sum, sumb) =>
        let raw := 1 / 2 + phi / (2 * PI) + 1 / PI * sum in
        let b := 1 / 2 + base / (2 * PI) + 1 / PI * sumb in
        let forward := clip (raw - b) 0 1 in
        let backward := clip (b - raw) 0 1 in
        let v := clip (if Rleb base phi then forward else 1 - backward) 0 1 in
        if close_2pi x then 1 else v
    end.
(** The public cdf at an angle with admissible parameters. *)
Definition von_F (iv : nat -> R -> R) (num : R -> R -> R -> R) (mu kappa x : R) : R :=
  let y := wrap_angles x in
  if Rleb (2 * PI) y then 1 else if Rltb 0 y then von_cdf iv num mu kappa y else 0.

(** distributions.py:3519-3529: the starting angle. *)
Definition von_start (ndtri : R -> R) (mu kappa q : R) : R :=
  if Rltb kappa (3 / 10) then pymod (2 * PI * q) (2 * PI)
  else if Rltb 5 kappa then
    let guess := pymod (mu + ndtri q / sqrt kappa) (2 * PI) in
    let blend := if Rltb kappa 20 then 1 / 2 else 8 / 10 in
    pymod (blend * guess + (1 - blend) * (2 * PI * q)) (2 * PI)
  else pymod (mu + 2 * PI * (q - 1 / 2)) (2 * PI).
(** distributions.py:3538-3557: L, H and theta after the Newton steps. *)
Fixpoint von_newton (F pdf : R -> R) (q : R) (n : nat) (L H theta : R) : R * R * R :=
  match n with
  | O => (L, H, theta)
  | S k =>
      let delta := F theta - q in
      let L := if Rleb delta 0 then theta else L in
      let H := if Rltb 0 delta then theta else H in
      if Rleb (Rabs delta) (/ 10 ^ 12) && Rleb (H - L) (/ 10 ^ 10) then (L, H, theta)
      else
        let p := pdf theta in
        let denom := if Rltb (/ 10 ^ 15) p then p else / 10 ^ 15 in
        let next := theta - clip (delta / denom) (- PI) PI in
        let next := if Rleb next L || Rleb H next then (1 / 2) * (L + H) else next in
        von_newton F pdf q k L H (pymod next (2 * PI))
  end.
(** distributions.py:3561-3577: bisection. *)
Fixpoint von_bisect (F : R -> R) (q : R) (n : nat) (L H : R) : R :=
  match n with
  | O => (1 / 2) * (L + H)
  | S k =>
      let mid := (1 / 2) * (L + H) in
      let delta := F mid - q in
      if Rltb (/ 10 ^ 12) (Rabs delta)
      then (if Rltb 0 delta then von_bisect F q k L mid else von_bisect F q k mid H)
      else mid
  end.
(** distributions.py:3487-3580 for 0 < q < 1. *)
Definition von_ppf (iv : nat -> R -> R) (num : R -> R -> R -> R) (ndtri : R -> R) (mu kappa q : R) : R :=
  let mu := pymod mu (2 * PI) in
  if Rleb kappa (/ 10 ^ 9) then pymod (2 * PI * q) (2 * PI)
  else
    let qc := clip q (/ 10 ^ 15) (1 - / 10 ^ 15) in
    let F := von_F iv num mu kappa in
    let '(L, H, theta) := von_newton F (von_pdf iv mu kappa) qc 6 0 (2 * PI) (von_start ndtri mu kappa qc) in
    let delta := F theta - qc in
    let theta := if Rltb (/ 10 ^ 12) (Rabs delta) || Rltb (/ 10 ^ 10) (H - L)
                 then von_bisect F qc 30 L H else theta in
    pymod theta (2 * PI).

(** distributions.py:3626-3628: the constants of the Best-Fisher sampler. *)
Definition von_r (kappa : R) : R :=
  let a := 1 + sqrt (1 + 4 * kappa ^ 2) in
  let b := (a - sqrt (2 * a)) / (2 * kappa) in
  (1 + b ^ 2) / (2 * b).
(** distributions.py:3643-3645. *)
Definition von_propose (kappa u1 : R) : R :=
  let r := von_r kappa in
  let z := cos (PI * u1) in
  (1 + r * z) / (r + z).
(** distributions.py:3646-3648. *)
Definition von_accept (kappa f u2 : R) : bool :=
  let c := kappa * (von_r kappa - f) in
  Rltb u2 (c * (2 - c)) || Rleb u2 (c * exp (1 - c)).
Definition sign (x : R) : R := if Rltb x 0 then -1 else if Reqb x 0 then 0 else 1.
(** distributions.py:3641-3652: one sample from the stream of uniform numbers; None when the
    stream ends before a proposal is accepted. *)
Fixpoint von_draw (mu kappa : R) (us : list R) : option R :=
  match us with
  | u1 :: u2 :: rest =>
      let f := von_propose kappa u1 in
      if von_accept kappa f u2 then
        match rest with
        | u3 :: _ => Some (pymod (mu + sign (u3 - 1 / 2) * acos f) (2 * PI))
        | [] => None
        end
      else von_draw mu kappa rest
  | _ => None
  end.
(** distributions.py:3607-3624. *)
Definition von_rvs (mu kappa : R) (us : list R) : option R :=
  let mu := pymod mu (2 * PI) in
  if Rleb kappa (/ 10 ^ 9) then match us with u :: _ => Some (2 * PI * u) | [] => None end
  else von_draw mu kappa us.

(** distributions.py:3715-3751. *)
Definition von_var (iv : nat -> R -> R) (kappa : R) : R := 1 - iv 1%nat kappa / iv 0%nat kappa.
Definition von_std (iv : nat -> R -> R) (kappa : R) : R := sqrt (- 2 * ln (iv 1%nat kappa / iv 0%nat kappa)).
Definition von_entropy (iv : nat -> R -> R) (kappa : R) : R :=
  - ln (iv 0%nat kappa) + kappa * iv 1%nat kappa / iv 0%nat kappa.

(** distributions.py:3836-3845; data and weights paired up. *)
Definition von_nll (iv : nat -> R -> R) (s : list (R * R)) (mu kappa : R) : fl :=
  if Rltb 0 kappa then
    Fin (- kappa * Rsum (map (fun p => snd p * cos (fst p - mu)) s) +
         Rsum (map snd s) * (ln (2 * PI) + ln (iv 0%nat kappa)))
  else PInf.
(** distributions.py:3847-3856. *)
Definition von_grad (iv : nat -> R -> R) (s : list (R * R)) (mu kappa : R) : R * R :=
  (kappa * Rsum (map (fun p => snd p * sin (fst p - mu)) s),
   - Rsum (map (fun p => snd p * cos (fst p - mu)) s) + Rsum (map snd s) * (iv 1%nat kappa / iv 0%nat kappa)).
(** distributions.py:3801-3821, 3859: the location estimate of the moment fit. *)
Definition von_fit_mu (s : wsample) : res R :=
  match s with
  | [] => Err ValueError
  | _ =>
      if existsb (fun p => Rltb (snd p) 0) s then Err ValueError
      else if Rleb (wtotal s) 0 then Err ValueError
      else
        let s := map (fun p => (wrap_angles (fst p), snd p)) s in
        match fst (circ_mean_and_r_s s) with
        | Fin m => Ok (wrap_direction (pymod m (2 * PI)))
        | _ => Ok (wrap_direction (pymod 0 (2 * PI)))
        end
  end.

(** distributions.py:3658-3687: the parameters [rvs] works with, for positional arguments [args]
    and keywords; None = keyword not given.  Positional arguments fill size and random_state
    first.  The module's vonmises object has no attributes mu and kappa (3675-3676).
    [_argcheck] is not called. *)
Definition von_rvs_call (args : list R) (mu kappa size : option R) : res (R * R * option R) :=
  match args, size with
  | _ :: _, Some _ => Err TypeError
  | _, _ =>
      match mu, kappa with
      | Some m, Some k => Ok (m, k, match args with a :: _ => Some a | [] => size end)
      | _, _ => Err ValueError
      end
  end.
