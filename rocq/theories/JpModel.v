(** Model of jonespewsey, jonespewsey_sineskewed and jonespewsey_asym
    (distributions.py:4678-6475).  Scalar arguments and parameters; the caches are keyed by the
    parameters and left out.  Oracles: [iv] is scipy.special.iv, [lpmv nu z] is
    scipy.special.lpmv(0, nu, z), [quad f a b] is scipy's quad_vec, [num] and [ndtri] as in
    VonModel. *)
From Verif Require Import Prelude NpModel UtilsModel DescModel Desc2Model DistModel VonModel.

(** distributions.py:5301-5302. *)
Definition jp_ktol : R := / 10 ^ 3.
Definition jp_ptol : R := / 10 ^ 6.

(** ** jonespewsey *)
(** distributions.py:4703-4717. *)
Definition jp_ok (mu kappa psi : R) : bool := Rleb 0 mu && Rleb mu (2 * PI) && Rleb 0 kappa.
(** distributions.py:5322-5345 [_jp_kernel_base]; cosh and sinh do not overflow (5332-5341). *)
Definition jp_kernel (kappa psi phi : R) : R :=
  if Rltb (Rabs psi) jp_ptol then exp (kappa * cos phi)
  else
    let A := kappa * psi in
    let base := Rmax (cosh A + sinh A * cos phi) ftiny in
    Rpower base (1 / psi).
(** distributions.py:5443-5459. *)
Definition jp_legendre (lpmv : R -> R -> fl) (kappa psi : R) : fl :=
  match lpmv (1 / psi) (cosh (kappa * psi)) with
  | Fin v => if Rleb v 0 then NaN else Fin (1 / (2 * PI * v))
  | _ => NaN
  end.
(** distributions.py:5421-5440. *)
Definition jp_c (iv : nat -> R -> R) (lpmv : R -> R -> fl) (quad : (R -> R) -> R -> R -> R) (mu kappa psi : R) : R :=
  if Rltb kappa jp_ktol then 1 / (2 * PI)
  else if Rltb (Rabs psi) jp_ptol then 1 / (2 * PI * iv 0%nat kappa)
  else
    let by_quad := 1 / quad (fun x => jp_kernel kappa psi (x - mu)) (- PI) PI in
    match jp_legendre lpmv kappa psi with
    | Fin c => if Rleb (/ 10 ^ 12) c && Rleb c (10 ^ 6) then c else by_quad
    | _ => by_quad
    end.
(** distributions.py:4719-4741. *)
Definition jp_pdf (iv : nat -> R -> R) (lpmv : R -> R -> fl) (quad : (R -> R) -> R -> R -> R) (mu kappa psi x : R) : R :=
  if Rltb (Rabs kappa) jp_ktol then 1 / (2 * PI)
  else
    let c := jp_c iv lpmv quad mu kappa psi in
    if Rltb (Rabs psi) jp_ptol then c * exp (kappa * cos (x - mu))
    else c * jp_kernel kappa psi (x - mu).

(** distributions.py:5078: np.linspace(-pi, pi, 4096, endpoint=False). *)
Definition jp_size : nat := Z.to_nat 4096.
Definition jp_grid (k : nat) : R := - PI + INR k * (2 * PI / 4096).
(** distributions.py:5078-5091: the coefficient of the n-th cosine, n >= 1, of the density [pdf0]
    with mu = 0. *)
Definition jp_coeff (pdf0 : R -> R) (n : nat) : R :=
  clip (2 * PI / 4096 * Rsum (map (fun k => cos (INR n * jp_grid k) * pdf0 (pymod (jp_grid k) (2 * PI))) (seq 0 jp_size))) (- 1) 1.
(** distributions.py:5097-5106: the number of coefficients used. *)
Definition jp_last (c : nat -> R) : nat :=
  fold_left (fun acc n => if Rltb (5 / 10 ^ 12) (Rabs (c n / INR n)) then n else acc) (seq 1 256) 1%nat.
(** distributions.py:5111-5119. *)
Definition jp_cum (c : nat -> R) (N : nat) (phi : R) : R :=
  phi / (2 * PI) + Rsum (map (fun n => sin (phi * INR n) * (c n / INR n)) (seq 1 N)) / PI.
(** distributions.py:5121-5146. *)
Definition jp_skew (c : nat -> R) (N : nat) (phi : R) : R :=
  (1 - cos phi) / (2 * PI) +
  Rsum (map (fun n =>
    if Nat.eqb n 1 then c n * ((1 - cos (2 * phi)) / 4)
    else 1 / 2 * ((1 - cos (phi * INR n + phi)) / (INR n + 1) - (1 - cos (phi * INR n - phi)) / (INR n - 1)) * c n) (seq 1 N)) / PI.
(** distributions.py:4776-4814 for 0 < x < 2 pi. *)
Definition jp_cdf (iv : nat -> R -> R) (num : R -> R -> R -> R) (lpmv : R -> R -> fl) (quad : (R -> R) -> R -> R -> R)
    (mu kappa psi x : R) : R :=
  if Rltb kappa jp_ktol then pymod x (2 * PI) / (2 * PI)
  else if Rltb (Rabs psi) jp_ptol then von_F iv num mu kappa x
  else
    let c := jp_coeff (jp_pdf iv lpmv quad 0 kappa psi) in
    let N := jp_last c in
    let s := pymod (- mu) (2 * PI) in
    let e := pymod (x - mu) (2 * PI) in
    let Hs := jp_cum c N s in
    let He := jp_cum c N e in
    if Rleb s e then clip (He - Hs) 0 1 else clip (1 - (Hs - He)) 0 1.

(** A public cdf at an angle, for admissible parameters (412-414 and scipy). *)
Definition at_angle (cdf : R -> R) (x : R) : R :=
  let y := wrap_angles x in
  if Rleb (2 * PI) y then 1 else if Rltb 0 y then cdf y else 0.

(** distributions.py:4888-4913 (and 5668-5694, 6156-6182): L, H and theta after the Newton steps. *)
Fixpoint jp_newton (F pdf : R -> R) (q : R) (n : nat) (L H theta : R) : R * R * R :=
  match n with
  | O => (L, H, theta)
  | S k =>
      let delta := F theta - q in
      let L := if Rleb delta 0 then theta else L in
      let H := if Rltb 0 delta then theta else H in
      if Rleb (Rabs delta) (/ 10 ^ 12) && Rleb (H - L) (/ 10 ^ 10) then (L, H, theta)
      else
        let denom := Rmax (pdf theta) (/ 10 ^ 15) in
        let next := theta - clip (delta / denom) (- PI) PI in
        let next := if Rleb next L || Rleb H next then 1 / 2 * (L + H) else next in
        jp_newton F pdf q k L H (clip next 0 (2 * PI))
  end.
(** distributions.py:4881-4941 (and 5661-5722, 6149-6210); the bisection 4924-4939 is that of
    vonmises. *)
Definition jp_solve (F pdf : R -> R) (q : R) : R :=
  let '(L, H, theta) := jp_newton F pdf q 8 0 (2 * PI) (2 * PI * q) in
  if Rltb (/ 10 ^ 12) (Rabs (F theta - q)) || Rltb (/ 10 ^ 10) (H - L) then von_bisect F q 30 L H else theta.
(** distributions.py:4846-4949 for 0 < q < 1. *)
Definition jp_ppf (iv : nat -> R -> R) (num : R -> R -> R -> R) (ndtri : R -> R) (lpmv : R -> R -> fl) (quad : (R -> R) -> R -> R -> R)
    (mu kappa psi q : R) : R :=
  let qc := clip q (/ 10 ^ 15) (1 - / 10 ^ 15) in
  if Rltb kappa jp_ktol then 2 * PI * qc
  else if Rltb (Rabs psi) jp_ptol then von_ppf iv num ndtri mu kappa qc
  else jp_solve (at_angle (jp_cdf iv num lpmv quad mu kappa psi)) (jp_pdf iv lpmv quad mu kappa psi) qc.

(** distributions.py:5228-5238 with the bounds 5155-5156; data and weights paired up. *)
Definition jp_nll (pdf : R -> R -> R -> R -> R) (s : list (R * R)) (mu kappa psi : R) : fl :=
  if negb (Rleb (/ 10 ^ 6) kappa && Rleb kappa (10 ^ 3)) then PInf
  else if negb (Rleb (- 4) psi && Rleb psi 4) then PInf
  else
    let m := pymod mu (2 * PI) in
    if existsb (fun d => Rleb (pdf m kappa psi (fst d)) 0) s then PInf
    else Fin (- Rsum (map (fun d => snd d * ln (pdf m kappa psi (fst d))) s)).
Definition fl_lt (a b : fl) : bool :=
  match a, b with Fin x, Fin y => Rltb x y | Fin _, PInf => true | _, _ => false end.
(** distributions.py:5226, 5240-5246: best_score. *)
Definition jp_best (nll : R -> fl) : fl :=
  fold_left (fun best psi => if fl_lt (nll psi) best then nll psi else best)
            [-4; -3; -2; -1; 0; 1; 2; 3; 4] (nll 0).
(** distributions.py:5200-5261: fit(method="moments", return_info=True): the estimates and
    info["loglik"]. *)
Definition jp_fit_moments (pdf : R -> R -> R -> R -> R) (s : wsample) : res (R * R * R * fl) :=
  match s with
  | [] => Err ValueError
  | _ =>
      if existsb (fun p => Rltb (snd p) 0) s then Err ValueError
      else if Rleb (wtotal s) 0 then Err ValueError
      else
        let s := map (fun p => (wrap_angles (fst p), snd p)) s in
        let '(m, r) := circ_mean_and_r_s s in
        let mu := pymod (match m with Fin v => v | _ => 0 end) (2 * PI) in
        let r := clip r (/ 10 ^ 12) (1 - / 10 ^ 12) in
        let n := IZR (Z.max 1 (rint (wtotal s))) in
        do k <- circ_kappa r (Some n);
        let kappa := clip k (/ 10 ^ 6) (10 ^ 3) in
        Ok (wrap_direction mu, kappa, 0,
            match jp_best (jp_nll pdf s mu kappa) with Fin v => Fin (- v) | _ => NInf end)
  end.

(** ** jonespewsey_sineskewed *)
(** distributions.py:5490-5506. *)
Definition ss_ok (xi kappa psi lam : R) : bool := Rleb 0 xi && Rleb xi (2 * PI) && Rleb 0 kappa && Rleb (- 1) lam && Rleb lam 1.
(** distributions.py:5508-5527. *)
Definition ss_pdf (iv : nat -> R -> R) (lpmv : R -> R -> fl) (quad : (R -> R) -> R -> R -> R) (xi kappa psi lam x : R) : R :=
  if Rltb (Rabs kappa) jp_ktol then 1 / (2 * PI) * (1 + lam * sin (x - xi))
  else jp_c iv lpmv quad xi kappa psi * jp_kernel kappa psi (x - xi) * (1 + lam * sin (x - xi)).
(** distributions.py:5561-5613 for 0 < x < 2 pi. *)
Definition ss_cdf (iv : nat -> R -> R) (num : R -> R -> R -> R) (lpmv : R -> R -> fl) (quad : (R -> R) -> R -> R -> R)
    (xi kappa psi lam x : R) : R :=
  if Rltb kappa jp_ktol then
    let phi := pymod (x - xi) (2 * PI) in
    clip (phi / (2 * PI) + lam * ((1 - cos phi) / (2 * PI))) 0 1
  else if Rltb (Rabs psi) jp_ptol && Rltb (Rabs lam) (/ 10 ^ 12)
  then at_angle (jp_cdf iv num lpmv quad xi kappa psi) x
  else
    let c := jp_coeff (jp_pdf iv lpmv quad 0 kappa psi) in
    let N := jp_last c in
    let s := pymod (- xi) (2 * PI) in
    let e := pymod (x - xi) (2 * PI) in
    let Hs := jp_cum c N s in
    let He := jp_cum c N e in
    let '(Js, Je) := if Rltb 0 (Rabs lam) then (jp_skew c N s, jp_skew c N e) else (0, 0) in
    let base := if Rleb s e then He - Hs else 1 - (Hs - He) in
    let skew := if Rleb s e then Je - Js else - (Js - Je) in
    clip (base + lam * skew) 0 1.
(** distributions.py:5625-5729 for 0 < q < 1. *)
Definition ss_ppf (iv : nat -> R -> R) (num : R -> R -> R -> R) (ndtri : R -> R) (lpmv : R -> R -> fl) (quad : (R -> R) -> R -> R -> R)
    (xi kappa psi lam q : R) : R :=
  let xi := pymod xi (2 * PI) in
  let qc := clip q (/ 10 ^ 15) (1 - / 10 ^ 15) in
  if Rltb kappa jp_ktol then 2 * PI * qc
  else if Rltb (Rabs lam) (/ 10 ^ 12) then jp_ppf iv num ndtri lpmv quad xi kappa psi qc
  else jp_solve (at_angle (ss_cdf iv num lpmv quad xi kappa psi lam)) (ss_pdf iv lpmv quad xi kappa psi lam) qc.
(** distributions.py:5742-5779: one accepted draw; [base] are the draws of the symmetric
    distribution, each with its uniform number; None when they run out. *)
Fixpoint ss_draw (xi lam : R) (base : list (R * R)) : option R :=
  match base with
  | [] => None
  | (p, u) :: rest =>
      if Rleb u ((1 + lam * sin (p - xi)) / (1 + Rabs lam)) then Some p else ss_draw xi lam rest
  end.
Definition ss_rvs (xi lam : R) (base : list (R * R)) : res (option R) :=
  if Rleb 1 (Rabs lam) then Err ValueError else Ok (ss_draw (pymod xi (2 * PI)) lam base).

(** ** jonespewsey_asym *)
(** distributions.py:5981-5997. *)
Definition as_ok (xi kappa psi nu : R) : bool := Rleb 0 xi && Rleb xi (2 * PI) && Rleb 0 kappa && Rleb 0 nu && Rltb nu 1.
(** distributions.py:6454-6458. *)
Definition as_kernel (kappa psi nu phi : R) : R := jp_kernel kappa psi (phi + nu * cos phi).
(** distributions.py:6461-6473. *)
Definition as_c (quad : (R -> R) -> R -> R -> R) (xi kappa psi nu : R) : R :=
  if Rltb kappa jp_ktol then 1 / (2 * PI)
  else 1 / quad (fun x => as_kernel kappa psi nu (x - xi)) (- PI) PI.
(** distributions.py:5999-6018. *)
Definition as_pdf (quad : (R -> R) -> R -> R -> R) (xi kappa psi nu x : R) : R :=
  if Rltb (Rabs kappa) jp_ktol then 1 / (2 * PI)
  else as_c quad xi kappa psi nu * as_kernel kappa psi nu (x - xi).
(** distributions.py:6322-6332: the trapezoidal sums up to grid point j of 4096. *)
Definition as_delta : R := 2 * PI / 4096.
Definition as_cum (p : R -> R) (xi : R) (j : nat) : R :=
  let v i := p (pymod (xi + INR i * as_delta) (2 * PI)) in
  Rsum (map (fun i => 1 / 2 * (v i + v (S i)) * as_delta) (seq 0 j)).
(** distributions.py:6333-6337. *)
Definition as_table (p : R -> R) (xi : R) (j : nat) : R :=
  let total := as_cum p xi jp_size in
  as_cum p xi j / (if Rleb total 0 then 1 else total).
(** distributions.py:6095-6096: np.interp on the uniform grid for 0 <= phi < 2 pi. *)
Definition as_interp (t : nat -> R) (phi : R) : R :=
  let j := Z.to_nat (Rfloor (phi / as_delta)) in
  t j + (t (S j) - t j) / as_delta * (phi - INR j * as_delta).
(** distributions.py:6073-6104 for 0 < x < 2 pi. *)
Definition as_cdf (iv : nat -> R -> R) (num : R -> R -> R -> R) (lpmv : R -> R -> fl) (quad : (R -> R) -> R -> R -> R)
    (xi kappa psi nu x : R) : R :=
  if Rltb kappa jp_ktol && Rltb (Rabs nu) (/ 10 ^ 12) then at_angle (jp_cdf iv num lpmv quad xi kappa psi) x
  else
    let s := pymod (- xi) (2 * PI) in
    let e := pymod (x - xi) (2 * PI) in
    let t := as_table (as_pdf quad xi kappa psi nu) xi in
    let Hs := as_interp t s in
    let He := as_interp t e in
    if Rleb s e then clip (He - Hs) 0 1 else clip (1 - (Hs - He)) 0 1.
(** distributions.py:6117-6217 for 0 < q < 1. *)
Definition as_ppf (iv : nat -> R -> R) (num : R -> R -> R -> R) (lpmv : R -> R -> fl) (quad : (R -> R) -> R -> R -> R)
    (xi kappa psi nu q : R) : R :=
  let xi := pymod xi (2 * PI) in
  let qc := clip q (/ 10 ^ 15) (1 - / 10 ^ 15) in
  if Rltb kappa jp_ktol && Rltb nu (/ 10 ^ 12) then 2 * PI * qc
  else jp_solve (at_angle (as_cdf iv num lpmv quad xi kappa psi nu)) (as_pdf quad xi kappa psi nu) qc.
