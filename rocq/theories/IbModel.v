(** Model of inverse_batschelet (distributions.py:6476-7470) with its caches, and of the cache of
    normalising constants of the base class (distributions.py:364-390).  Scalar angles and
    parameters.  Oracles: [iv] and [pchip] as in FtModel; [root f a b] is the root returned by
    scipy's root_scalar(f, bracket=(a, b), method="brentq") when f changes sign there. *)
From Verif Require Import Prelude NpModel UtilsModel DescModel Desc2Model DistModel VonModel FtModel.

(** ** The cache of normalising constants *)
(** distributions.py:364-381: a parameter is an array of values; the key needs one value each. *)
Fixpoint cache_key (params : list (list R)) : option (list R) :=
  match params with
  | [] => Some []
  | [x] :: t => match cache_key t with Some k => Some (x :: k) | None => None end
  | _ => None
  end.
(** Equality of keys and look-up in a dictionary, the latest entry first. *)
Fixpoint key_eqb (a b : list R) : bool :=
  match a, b with
  | [], [] => true
  | x :: a', y :: b' => Reqb x y && key_eqb a' b'
  | _, _ => false
  end.
Definition dict_get {V} (k : list R) (d : list (list R * V)) : option V :=
  match find (fun e => key_eqb (fst e) k) d with Some e => Some (snd e) | None => None end.
(** distributions.py:383-390: the value and the cache afterwards. *)
Definition get_cached {V} (compute : unit -> V) (params : list (list R)) (d : list (list R * V)) : V * list (list R * V) :=
  match cache_key params with
  | None => (compute tt, d)
  | Some k =>
      match dict_get k d with
      | Some v => (v, d)
      | None => (compute tt, (k, compute tt) :: d)
      end
  end.

(** ** The density *)
(** distributions.py:61-66. *)
Definition ib_ktol : R := / 10 ^ 9.
Definition ib_kmax : R := 700.
Definition ib_tol : R := / 10 ^ 12.
Definition ib_grid : nat := Z.to_nat 4096.

(** distributions.py:6528-6545. *)
Definition ib_ok (xi kappa nu lam : R) : bool :=
  Rleb 0 xi && Rleb xi (2 * PI) && Rleb 0 kappa && Rleb (- 1) nu && Rleb nu 1 && Rleb (- 1) lam && Rleb lam 1.
(** distributions.py:7322-7349; brentq converges. *)
Definition ib_tnu (root : (R -> R) -> R -> R -> R) (nu xi x : R) : R :=
  let phi := pymod (x - xi + PI) (2 * PI) - PI in
  if Rleb (Rabs nu) ib_tol then phi
  else centre (root (fun y => y - nu * (1 + cos y) - phi) (- PI) PI).
(** distributions.py:7352-7378. *)
Definition ib_sinv (root : (R -> R) -> R -> R -> R) (lam x : R) : R :=
  if isclose12 lam (- 1) then x
  else centre (root (fun u => u - 1 / 2 * (1 + lam) * sin u - x) (- PI) PI).
(** distributions.py:6581-6589 and 7247-7255, which differ in the test [close] for lambda = -1. *)
Definition ib_log (root : (R -> R) -> R -> R -> R) (close : bool) (kappa lam phi : R) : R :=
  if close then kappa * cos (phi - sin phi)
  else
    let con1 := (1 - lam) / (1 + lam) in
    let con2 := 2 * lam / (1 + lam) in
    kappa * cos (con1 * phi + con2 * ib_sinv root lam phi).

(** distributions.py:7393, 7417: the logarithm of 2 pi I_0(kappa), with i0e. *)
Definition ib_log_mult (iv : nat -> R -> R) (kappa : R) : R := ln (2 * PI) + ln (iv 0%nat kappa * exp (- kappa)) + kappa.
(** distributions.py:7406-7413. *)
Definition ib_log_int (kappa lam : R) (N : nat) : R := log_trap N (fun phi => kappa * cos (phi - 1 / 2 * (1 - lam) * sin phi)).
(** distributions.py:7416-7443 for lambda < 1. *)
Definition ib_c_numeric (iv : nat -> R -> R) (kappa lam : R) (N : nat) : fl :=
  let log_int := ib_log_int kappa lam N in
  if isclose12 lam (- 1) then Fin (exp (- log_int))
  else
    let t1 := ln (1 + lam) + ib_log_mult iv kappa in
    let t2 := ln (2 * Rabs lam) + log_int in
    let none := Rleb (Rabs lam) ib_tol in
    let m := if none then t1 else Rmax t1 t2 in
    let term1 := exp (t1 - m) in
    let term2 := if none then 0 else exp (t2 - m) in
    let d := if Rleb 0 lam then term1 - term2 else term1 + term2 in
    if Rleb d 0 then NaN else Fin (exp (ln (1 - lam) - (m + ln d))).
Definition usable (c : fl) : bool := match c with Fin v => Rltb 0 v | _ => false end.
(** distributions.py:7385-7403. *)
Definition ib_c (iv : nat -> R -> R) (kappa lam : R) : fl :=
  let k := clip kappa 0 ib_kmax in
  if Rleb k ib_ktol then Fin (1 / (2 * PI))
  else if isclose12 lam 1 then
    let K := 1 - iv 1%nat k / iv 0%nat k in
    if Rleb K 0 then ib_c_numeric iv k lam (2 * ib_grid) else Fin (exp (- ib_log_mult iv k - ln K))
  else
    let c := ib_c_numeric iv k lam ib_grid in
    if usable c then c else ib_c_numeric iv k lam (2 * ib_grid).

(** ** The caches *)
(** distributions.py:7303-7311, without the interpolators, which depend on these entries only. *)
Record ib_table := { t_size : nat; t_pdf : nat -> R; t_cdf : nat -> R; t_lognorm : R }.
(** distributions.py:163, 6520: the two dictionaries; the keys are (kappa, lambda) and
    (kappa, nu, lambda), the grid size in the latter being a function of them. *)
Record ib_state := { norms : list (list R * fl); tables : list (list R * ib_table) }.
Definition ib_fresh : ib_state := {| norms := []; tables := [] |}.

(** distributions.py:7461-7470. *)
Definition ib_size (kappa nu lam : R) : nat :=
  let sharp := (1 + 3 / 4 * Rabs lam) * (1 + Rabs nu) * sqrt (kappa + 1) in
  let size := Nat.pow 2 (ceil_log2 (clip (64 + 12 * sharp) 512 8192)) in
  Nat.min (Nat.max size (Z.to_nat 512)) (Z.to_nat 8192).
(** distributions.py:6572-6578. *)
Definition ib_norm (iv : nat -> R -> R) (kappa lam : R) (st : ib_state) : fl * ib_state :=
  let (c, d) := get_cached (fun _ => ib_c iv kappa lam) [[kappa]; [lam]] (norms st) in
  (if usable c then c else ib_c_numeric iv kappa lam ib_grid, {| norms := d; tables := tables st |}).
Definition ib_set_norm (kappa lam : R) (c : fl) (st : ib_state) : ib_state :=
  {| norms := ([kappa; lam], c) :: norms st; tables := tables st |}.
(** distributions.py:7257-7265. *)
Definition ib_table_norm (iv : nat -> R -> R) (kappa lam : R) (st : ib_state) : fl * ib_state :=
  let (c, d) := get_cached (fun _ => ib_c iv kappa lam) [[kappa]; [lam]] (norms st) in
  let st := {| norms := d; tables := tables st |} in
  if usable c then (c, st)
  else let c := ib_c_numeric iv kappa lam ib_grid in (c, ib_set_norm kappa lam c st).
(** distributions.py:7245-7311 for a usable normalising constant; a NaN one gives a NaN table. *)
Definition ib_build (iv : nat -> R -> R) (root : (R -> R) -> R -> R -> R) (kappa nu lam : R) (st : ib_state) : option ib_table * ib_state :=
  let N := ib_size kappa nu lam in
  let (c, st) := ib_table_norm iv kappa lam st in
  match c with
  | Fin c =>
      let log_norm := ln c in
      let p i := exp (clip (log_norm + ib_log root (isclose12 lam (- 1)) kappa lam (ib_tnu root nu 0 (node N i))) (- 745) 700) in
      let mass := trap_cum N p N in
      if Rleb mass 0 then
        let p i := 1 / (2 * PI) in
        (Some {| t_size := N; t_pdf := p; t_cdf := table_cdf N p; t_lognorm := - ln (2 * PI) |}, st)
      else if Rltb (5 / 10 ^ 10) (Rabs (mass - 1)) then
        let scale := 1 / mass in
        let q i := p i * scale in
        let ln' := log_norm + ln scale in
        (Some {| t_size := N; t_pdf := q; t_cdf := table_cdf N q; t_lognorm := ln' |}, ib_set_norm kappa lam (Fin (exp ln')) st)
      else (Some {| t_size := N; t_pdf := p; t_cdf := table_cdf N p; t_lognorm := log_norm |}, st)
  | _ => (None, st)
  end.
(** distributions.py:7216-7243 for kappa above the tolerance. *)
Definition ib_get_table (iv : nat -> R -> R) (root : (R -> R) -> R -> R -> R) (kappa nu lam : R) (st : ib_state) : option ib_table * ib_state :=
  match dict_get [kappa; nu; lam] (tables st) with
  | Some t => (Some t, st)
  | None =>
      match ib_build iv root kappa nu lam st with
      | (Some t, st) => (Some t, {| norms := norms st; tables := ([kappa; nu; lam], t) :: tables st |})
      | (None, st) => (None, st)
      end
  end.

(** ** The public methods *)
(** distributions.py:6547-6596. *)
Definition ib_pdf (iv : nat -> R -> R) (root : (R -> R) -> R -> R -> R) (xi kappa nu lam x : R) (st : ib_state) : fl * ib_state :=
  let k := clip kappa 0 ib_kmax in
  if Rleb k ib_ktol then (Fin (1 / (2 * PI)), st)
  else
    let (c, st) := ib_norm iv k lam st in
    match c with
    | Fin c => (Fin (Rmax (c * exp (ib_log root (isclose lam (- 1)) k lam (ib_tnu root nu xi x))) 0), st)
    | _ => (NaN, st)
    end.
(** distributions.py:6598-6642 with the base class: NaN for invalid parameters, on the support [0, 2 pi]. *)
Definition ib_public_pdf iv root (xi kappa nu lam x : R) (st : ib_state) : fl * ib_state :=
  if ib_ok xi kappa nu lam then ib_pdf iv root xi kappa nu lam (wrap_angles x) st else (NaN, st).
(** distributions.py:6644-6689 for a scalar x strictly between 0 and 2 pi. *)
Definition ib_cdf iv root (pchip : nat -> (nat -> R) -> (nat -> R) -> R -> R) (xi kappa nu lam x : R) (st : ib_state) : fl * ib_state :=
  let k := clip kappa 0 ib_kmax in
  let (v, st) :=
    if Rleb k ib_ktol then (Fin (x / (2 * PI)), st)
    else match ib_get_table iv root k nu lam st with
      | (Some t, st) => (Fin (from_zero (pchip (t_size t) (node (t_size t)) (t_cdf t)) xi x), st)
      | (None, st) => (NaN, st)
      end in
  (if isclose_tol 0 (/ 10 ^ 12) x (2 * PI) then Fin 1 else v, st).
(** distributions.py:6691-6726: kappa is clipped before the arguments are checked. *)
Definition ib_public_cdf iv root pchip (xi kappa nu lam x : R) (st : ib_state) : fl * ib_state :=
  let k := clip kappa 0 ib_kmax in
  let y := wrap_angles x in
  if negb (ib_ok xi k nu lam) then (NaN, st)
  else if Rleb (2 * PI) y then (Fin 1, st)
  else if Rltb 0 y then ib_cdf iv root pchip xi k nu lam y st
  else (Fin 0, st).
(** distributions.py:6728-6817 for 0 < q < 1. *)
Definition ib_ppf iv root pchip (guess : R -> R) (xi kappa nu lam q : R) (st : ib_state) : fl * ib_state :=
  let k := clip kappa 0 ib_kmax in
  if Rleb k ib_ktol then
    (Fin (if isclose_tol 0 (/ 10 ^ 12) q 1 then 2 * PI
          else if isclose_tol 0 (/ 10 ^ 12) q 0 then 0
          else pymod (2 * PI * q) (2 * PI)), st)
  else match ib_get_table iv root k nu lam st with
    | (Some t, st) =>
        let N := t_size t in
        (Fin (table_ppf N (t_cdf t) (pchip N (node N) (t_cdf t)) (pchip N (node N) (t_pdf t)) guess 60 xi q), st)
    | (None, st) => (NaN, st)
    end.
(** distributions.py:6819-6851. *)
Definition ib_public_ppf iv root pchip guess (xi kappa nu lam q : R) (st : ib_state) : fl * ib_state :=
  let k := clip kappa 0 ib_kmax in
  if negb (ib_ok xi k nu lam) then (NaN, st)
  else if Rltb 0 q && Rltb q 1 then ib_ppf iv root pchip guess xi k nu lam q st
  else (if Reqb q 0 then Fin 0 else if Reqb q 1 then Fin (2 * PI) else NaN, st).

(** ** Calls one after another on the same object *)
Inductive ib_call := CallPdf (xi kappa nu lam x : R) | CallCdf (xi kappa nu lam x : R) | CallPpf (xi kappa nu lam q : R).
Definition ib_run iv root pchip guess (c : ib_call) (st : ib_state) : fl * ib_state :=
  match c with
  | CallPdf xi kappa nu lam x => ib_public_pdf iv root xi kappa nu lam x st
  | CallCdf xi kappa nu lam x => ib_public_cdf iv root pchip xi kappa nu lam x st
  | CallPpf xi kappa nu lam q => ib_public_ppf iv root pchip guess xi kappa nu lam q st
  end.
(** The state after a list of calls, and the answer to a call made afterwards. *)
Definition ib_after iv root pchip guess (cs : list ib_call) : ib_state :=
  fold_left (fun st c => snd (ib_run iv root pchip guess c st)) cs ib_fresh.
Definition ib_answer iv root pchip guess (cs : list ib_call) (c : ib_call) : fl :=
  fst (ib_run iv root pchip guess c (ib_after iv root pchip guess cs)).
