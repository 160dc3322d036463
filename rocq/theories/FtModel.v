(** Model of vonmises_flattopped (distributions.py:3905-4675).  Scalar angles; parameters are scalars
    after [ensure_scalar].  The caches of this class are keyed by every parameter of the table and
    left out.  Oracles: [iv] is scipy.special.iv; [pchip N xs ys] is scipy's PchipInterpolator through
    the N + 1 nodes (xs i, ys i); [guess] is the inverse interpolator, used only as a starting value. *)
From Verif Require Import Prelude NpModel UtilsModel DescModel Desc2Model DistModel VonModel.

(** distributions.py:53-59. *)
Definition ft_ktol : R := / 10 ^ 9.
Definition ft_kmax : R := 1000.

(** distributions.py:4663-4675 (and 7446-7458): a parameter given as an array of values. *)
Definition ensure_scalar (l : list R) : res R :=
  match l with
  | [] => Err ValueError
  | x :: t => if forallb (fun y => Reqb y x) t then Ok x else Err ValueError
  end.

(** distributions.py:3933-3948. *)
Definition ft_ok (mu kappa nu : R) : bool :=
  Rleb 0 mu && Rleb mu (2 * PI) && Rleb 0 kappa && Rleb kappa ft_kmax && Rleb (- 1) nu && Rleb nu 1.

(** int(np.ceil(np.log2(t))) for t >= 1. *)
Definition ceil_log2 (t : R) : nat := Z.to_nat (- Rfloor (- (ln t / ln 2))).
(** distributions.py:4591-4600 (49-52); the final bump to an even number never applies. *)
Definition ft_size (kappa nu : R) : nat :=
  let sharp := (1 + Rabs nu) * sqrt (Rmax kappa 0 + 1) in
  let size := Nat.pow 2 (ceil_log2 (clip (64 + 12 * sharp) 512 8192)) in
  Nat.min (Nat.max size (Z.to_nat 512)) (Z.to_nat 8192).

(** distributions.py:4607: np.linspace(-pi, pi, N + 1). *)
Definition node (N i : nat) : R := - PI + INR i * (2 * PI / INR N).
(** np.max over the N + 1 nodes. *)
Definition node_max (N : nat) (f : nat -> R) : R := fold_left (fun m i => Rmax m (f i)) (seq 1 N) (f O).
(** distributions.py:4608. *)
Definition ft_log (kappa nu phi : R) : R := kappa * cos (phi + nu * sin phi).
(** distributions.py:4609-4615 (and 7406-7413): the logarithm of the trapezoidal sum of exp(lk) over
    one turn; logsumexp is the logarithm of the weighted sum of exponentials. *)
Definition log_trap (N : nat) (lk : R -> R) : R :=
  let m := node_max N (fun i => lk (node N i)) in
  let w i := if Nat.eqb i 0 || Nat.eqb i N then 1 / 2 else 1 in
  ln (2 * PI / INR N) + m + ln (Rsum (map (fun i => w i * exp (lk (node N i) - m)) (seq 0 (S N)))).
(** distributions.py:4616. *)
Definition ft_lognorm (kappa nu : R) : R := - log_trap (ft_size kappa nu) (ft_log kappa nu).

(** distributions.py:4619-4622: the density at the nodes. *)
Definition ft_node_pdf (kappa nu : R) (i : nat) : R :=
  let N := ft_size kappa nu in
  let p j := Rmax (exp (clip (ft_log kappa nu (node N j) + ft_lognorm kappa nu) (- 700) 700)) ftiny in
  if Nat.eqb i N then p O else p i.
(** distributions.py:4624-4628 (and 7287-7290): the cumulative sums of the table. *)
Definition trap_cum (N : nat) (p : nat -> R) (i : nat) : R :=
  Rsum (map (fun j => 1 / 2 * (p j + p (S j))) (seq 0 i)) * (2 * PI / INR N).
Definition table_cdf (N : nat) (p : nat -> R) (i : nat) : R :=
  if Nat.eqb i N then 1
  else node_max i (fun j => clip (trap_cum N p j) 0 1).
(** distributions.py:4630. *)
Definition ft_H (pchip : nat -> (nat -> R) -> (nat -> R) -> R -> R) (kappa nu : R) : R -> R :=
  let N := ft_size kappa nu in
  pchip N (node N) (table_cdf N (ft_node_pdf kappa nu)).

(** distributions.py:3955-3974. *)
Definition ft_pdf (mu kappa nu x : R) : R :=
  let k := clip kappa 0 ft_kmax in
  if Rleb k ft_ktol then 1 / (2 * PI)
  else
    let phi := pymod (x - mu + PI) (2 * PI) - PI in
    exp (ft_log k nu phi + ft_lognorm k nu).
(** distributions.py:3976-4020: the public pdf clips kappa before the arguments are checked. *)
Definition ft_public_pdf (mu kappa nu x : R) : fl :=
  let k := clip kappa 0 ft_kmax in
  public_pdf (ft_ok mu k nu) (ft_pdf mu k nu) x.

(** distributions.py:4043-4048 (and 6671-6677): the table measured from angle 0. *)
Definition from_zero (H : R -> R) (mu x : R) : R :=
  let phi := pymod (x - mu + PI) (2 * PI) - PI in
  let start := pymod (- mu + PI) (2 * PI) - PI in
  let d := H phi - H start in
  clip (if Rltb (H phi) (H start) then d + 1 else d) 0 1.
(** distributions.py:4022-4061 for a scalar x strictly between 0 and 2 pi. *)
Definition ft_cdf (pchip : nat -> (nat -> R) -> (nat -> R) -> R -> R) (mu kappa nu x : R) : R :=
  let k := clip kappa 0 ft_kmax in
  let v := if Rleb k ft_ktol then x / (2 * PI) else from_zero (ft_H pchip k nu) mu x in
  if isclose_tol 0 (/ 10 ^ 12) x (2 * PI) then 1 else v.
(** distributions.py:4502-4540. *)
Definition ft_public_cdf pchip (mu kappa nu x : R) : fl :=
  public_cdf (ft_ok mu kappa nu) (ft_cdf pchip mu kappa nu) x.

(** distributions.py:4127-4147 (and 6790-6808): one quantile, safeguarded Newton steps on [H] with
    density [p]; [n] is the number of steps left. *)
Fixpoint table_newton (H p : R -> R) (target : R) (n : nat) (lo hi phi : R) : R :=
  match n with
  | O => phi
  | S n' =>
      let residual := H phi - target in
      let d := Rmax (p phi) ftiny in
      if Rleb (Rabs residual) (/ 10 ^ 12) && Rleb (hi - lo) (/ 10 ^ 10) then phi
      else
        let hi' := if Rltb 0 residual then Rmin hi phi else hi in
        let lo' := if Rltb 0 residual then lo else Rmax lo phi in
        let c := phi - residual / d in
        let c' := if Rleb c lo' || Rleb hi' c then 1 / 2 * (lo' + hi') else c in
        table_newton H p target n' lo' hi' (clip c' lo' hi')
  end.
(** distributions.py:4102-4149 (and 6766-6810): np.searchsorted(side="right") counts the entries not
    above the target. *)
Definition table_ppf (N : nat) (cdf : nat -> R) (H p guess : R -> R) (steps : nat) (mu q : R) : R :=
  let start := pymod (- mu + PI) (2 * PI) - PI in
  let target := pymod (H start + q) 1 in
  if isclose_tol 0 (/ 10 ^ 12) q 0 then 0
  else if isclose_tol 0 (/ 10 ^ 12) q 1 then 2 * PI
  else
    let above := length (filter (fun i => Rleb (cdf i) target) (seq 0 (S N))) in
    let i := Nat.min (Nat.max above 1) N in
    let lo := node N (i - 1) in
    let hi := node N i in
    let phi := table_newton H p target steps lo hi (clip (guess target) lo hi) in
    pymod (mu + phi) (2 * PI).
(** distributions.py:4063-4156 for 0 < q < 1. *)
Definition ft_ppf (pchip : nat -> (nat -> R) -> (nat -> R) -> R -> R) (guess : R -> R) (mu kappa nu q : R) : R :=
  if Rleb kappa ft_ktol then
    if isclose_tol 0 (/ 10 ^ 12) q 1 then 2 * PI
    else if isclose_tol 0 (/ 10 ^ 12) q 0 then 0
    else pymod (2 * PI * q) (2 * PI)
  else
    let N := ft_size kappa nu in
    table_ppf N (table_cdf N (ft_node_pdf kappa nu)) (ft_H pchip kappa nu)
      (fun phi => exp (ft_log kappa nu phi + ft_lognorm kappa nu)) guess 50 mu q.
(** distributions.py:4158-4189. *)
Definition ft_public_ppf pchip guess (mu kappa nu q : R) : fl :=
  public_ppf (ft_ok mu kappa nu) (ft_ppf pchip guess mu kappa nu) q.

(** distributions.py:4555-4581; np.log(multiplier) and i0e spelled out. *)
Definition ft_env (kappa nu : R) : R := clip (kappa * (1 + nu) ^ 2) (/ 10 ^ 6) ft_kmax.
Definition ft_log_env (iv : nat -> R -> R) (kappa nu phi : R) : R :=
  let k := ft_env kappa nu in
  k * cos phi - (ln (2 * PI) + ln (iv 0%nat k * exp (- k)) + k).
Definition ft_logmult (iv : nat -> R -> R) (kappa nu : R) : R :=
  let N := ft_size kappa nu in
  let m := node_max N (fun i => ln (ft_node_pdf kappa nu i) - ft_log_env iv kappa nu (node N i)) in
  ln (exp m * (1 + 5 / 10 ^ 12)).
(** distributions.py:4236-4243: the logarithm of the probability of accepting a proposal. *)
Definition ft_log_accept (iv : nat -> R -> R) (mu kappa nu proposal : R) : R :=
  let phi := pymod (proposal - mu + PI) (2 * PI) - PI in
  ft_log kappa nu phi + ft_lognorm kappa nu - ft_log_env iv kappa nu phi - ft_logmult iv kappa nu.
(** distributions.py:4191-4256 with total > 0: [stream] is what rng.vonmises(mu, kappa_env) and
    rng.random() return, batch after batch; None when the stream ends before the sample is full. *)
Definition ft_rvs (iv : nat -> R -> R) (mu kappa nu : R) (uniforms : list R) (stream : list (R * R)) (total : nat) : option (list R) :=
  let mu := pymod mu (2 * PI) in
  let kappa := clip kappa 0 ft_kmax in
  if Rleb kappa ft_ktol then
    if Nat.leb total (length uniforms) then Some (map (fun u => 2 * PI * u) (firstn total uniforms)) else None
  else
    let accepted := filter (fun p => Rleb (ln (snd p)) (ft_log_accept iv mu kappa nu (fst p))) stream in
    if Nat.leb total (length accepted) then Some (map (fun p => pymod (fst p) (2 * PI)) (firstn total accepted)) else None.

(** distributions.py:4395-4419: weighted negative log-likelihood, for the bounds [kl, kh], [nl, nh]. *)
Definition ft_nll (kl kh nl nh : R) (s : list (R * R)) (mu kappa nu : R) : fl :=
  if negb (Rleb 0 mu && Rleb mu (2 * PI)) then PInf
  else if negb (Rleb kl kappa && Rleb kappa kh) then PInf
  else if negb (Rleb nl nu && Rleb nu nh) then PInf
  else
    let m := pymod mu (2 * PI) in
    if Rleb kappa ft_ktol then Fin (- Rsum (map (fun p => snd p * - ln (2 * PI)) s))
    else Fin (- Rsum (map (fun p => snd p * (ft_log kappa nu (pymod (fst p - m + PI) (2 * PI) - PI) + ft_lognorm kappa nu)) s)).
