(** Model of the rejection samplers of jonespewsey and jonespewsey_asym
    (distributions.py:4975-5070, 5348-5413, 6229-6314).  Scalar parameters; the sampler cache is
    keyed by all the parameters and left out.  Oracles as in JpModel; random numbers are
    arguments. *)
From Verif Require Import Prelude NpModel UtilsModel DescModel Desc2Model DistModel VonModel JpModel.

(** distributions.py:5348-5357 [_jp_effective_kappa]; the exponential does not overflow. *)
Definition jp_effective (kappa psi : R) : R :=
  if Rltb (Rabs psi) jp_ptol then Rmax kappa (/ 10 ^ 6)
  else
    let k := (1 - exp (- 2 * (kappa * psi))) / (2 * psi) in
    if Rleb k 0 then Rmax kappa (/ 10 ^ 6) else k.
(** distributions.py:5360-5366 [_log_vonmises_pdf]; i0e(k) is I0(k) exp(-k). *)
Definition log_vonmises (iv : nat -> R -> R) (mu kappa theta : R) : R :=
  if Rltb kappa (/ 10 ^ 8) then - ln (2 * PI)
  else kappa * cos (theta - mu) - (ln (2 * PI) + (kappa + ln (iv 0%nat kappa * exp (- kappa)))).
(** np.max of a non-empty array. *)
Definition npmax (l : list R) : R := match l with [] => 0 | x :: r => fold_left Rmax r x end.
(** distributions.py:5379-5381: the largest log-ratio over the grid of pairs (angle, log target). *)
Definition env_ratio (iv : nat -> R -> R) (grid : list (R * R)) (mu kappa : R) : R :=
  npmax (map (fun p => snd p - log_vonmises iv mu kappa (fst p)) grid).
Definition env_clip (k : R) : R := clip k (/ 10 ^ 6) (10 ^ 4).
(** distributions.py:5377-5386: one candidate; the state is best_kappa and log_M_best, None while
    it is infinite. *)
Definition env_step (ratio : R -> R) (st : R * option R) (k : R) : R * option R :=
  let k := env_clip k in
  let m := ratio k in
  match snd st with
  | None => (k, Some m)
  | Some b => if Rltb m b then (k, Some m) else st
  end.
(** distributions.py:5388-5402. *)
Definition env_pool (g : R) : list R :=
  unique (map env_clip
    [g; Rmax (g * (1 / 2)) (/ 10 ^ 6); g * 2; Rmax (g * (1 / 4)) (/ 10 ^ 6); g * 4; 1 / 2; 1; Rmax g (3 / 2); Rmax g 3]).
(** distributions.py:5406-5407. *)
Definition env_span (k : R) : list R :=
  map (fun i => env_clip (k * (1 / 2) + INR i * ((k * (3 / 2) - k * (1 / 2)) / 6))) (seq 0 7).
(** distributions.py:5405-5408. *)
Fixpoint env_refine (ratio : R -> R) (n : nat) (st : R * option R) : R * option R :=
  match n with
  | O => st
  | S n' => env_refine ratio n' (fold_left (env_step ratio) (env_span (fst st)) st)
  end.
(** distributions.py:5369-5413 [_optimize_vonmises_envelope]: K and M. *)
Definition envelope (iv : nat -> R -> R) (grid : list (R * R)) (mu guess : R) : R * R :=
  let ratio := env_ratio iv grid mu in
  let st := env_refine ratio 3 (fold_left (env_step ratio) (env_pool guess) (Rmax guess (/ 10 ^ 6), None)) in
  let m := match snd st with Some m => m | None => 0 end in
  (fst st, Rmax (exp (m + ln (1 + 2 / 100))) (101 / 100)).
(** distributions.py:5056-5060 (and 6300-6304). *)
Definition env_node (i : nat) : R := INR i * (2 * PI / 2048).
Definition env_grid (pdf : R -> R) (mu : R) : list (R * R) :=
  map (fun i => let t := pymod (mu + env_node i) (2 * PI) in (t, ln (Rmax (pdf t) ftiny))) (seq 0 (Z.to_nat 2048)).
(** distributions.py:5049-5070. *)
Definition jp_envelope (iv : nat -> R -> R) (lpmv : R -> R -> fl) (quad : (R -> R) -> R -> R -> R) (mu kappa psi : R) : R * R :=
  envelope iv (env_grid (jp_pdf iv lpmv quad mu kappa psi) mu) mu (Rmax (jp_effective kappa psi) (/ 10 ^ 6)).
(** distributions.py:6293-6314. *)
Definition as_envelope (iv : nat -> R -> R) (quad : (R -> R) -> R -> R -> R) (xi kappa psi nu : R) : R * R :=
  envelope iv (env_grid (as_pdf quad xi kappa psi nu) xi) xi (Rmax (jp_effective kappa psi) (/ 10 ^ 6)).

(** distributions.py:5013-5017: whether the proposal [fst p] is kept when rng.uniform gives [snd p]. *)
Definition env_accept (iv : nat -> R -> R) (pdf : R -> R) (mu K M : R) (p : R * R) : bool :=
  let g := von_pdf iv mu K (fst p) in
  Rleb (snd p) (if Rltb 0 g then pdf (fst p) / (M * g) else 0).
(** distributions.py:5003-5021: each batch pairs the draws of vonmises.rvs(mu, kappa_env) with those
    of rng.uniform(0, 1), as many as are still missing; None when the batches run out. *)
Fixpoint env_loop (accept : R * R -> bool) (batches : list (list (R * R))) (remaining : nat) : option (list R) :=
  match remaining, batches with
  | O, _ => Some []
  | _, [] => None
  | _, b :: rest =>
      if Nat.eqb (length b) remaining then
        let kept := map fst (filter accept b) in
        match env_loop accept rest (remaining - length kept) with
        | Some l => Some (kept ++ l)
        | None => None
        end
      else None
  end.
(** distributions.py:4975-5023: [uniforms] are the draws of rng.uniform(0, 2 pi), [von m k] those of
    vonmises.rvs(m, k). *)
Definition jp_rvs (iv : nat -> R -> R) (lpmv : R -> R -> fl) (quad : (R -> R) -> R -> R -> R) (mu kappa psi : R)
    (uniforms : list R) (von : R -> R -> list R) (batches : list (list (R * R))) (total : nat) : option (list R) :=
  let mu := pymod mu (2 * PI) in
  if Rltb kappa jp_ktol then Some uniforms
  else if Rltb (Rabs psi) jp_ptol then Some (von mu kappa)
  else
    let '(K, M) := jp_envelope iv lpmv quad mu kappa psi in
    env_loop (env_accept iv (jp_pdf iv lpmv quad mu kappa psi) mu K M) batches total.
(** distributions.py:6229-6280. *)
Definition as_rvs (iv : nat -> R -> R) (quad : (R -> R) -> R -> R -> R) (xi kappa psi nu : R)
    (uniforms : list R) (von : R -> R -> list R) (batches : list (list (R * R))) (total : nat) : res (option (list R)) :=
  let xi := pymod xi (2 * PI) in
  if negb (Rleb 0 nu && Rltb nu 1) then Err ValueError
  else if Rltb kappa jp_ktol then Ok (Some uniforms)
  else if Rltb (Rabs psi) jp_ptol && Rltb nu (/ 10 ^ 12) then Ok (Some (von xi kappa))
  else
    let '(K, M) := as_envelope iv quad xi kappa psi nu in
    Ok (env_loop (env_accept iv (as_pdf quad xi kappa psi nu) xi K M) batches total).
