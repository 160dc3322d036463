(** Model of the random_state of the samplers: CircularContinuous._init_rng (distributions.py:234-268) and
    the two ways in which rvs reaches it.  numpy is an argument. *)
From Verif Require Import Prelude.
Open Scope Z_scope.

(** numpy.random: states of a Generator ([G]) and of the older RandomState ([L]).  [default_rng z] and
    [seeded z] are seeded with z; [randint] is randint(0, 2**32); [fresh n] is the n-th generator seeded
    by the operating system. *)
Record numpy (G L : Type) := { default_rng : Z -> G; seeded : Z -> L; randint : L -> Z * L; fresh : nat -> G }.
Arguments default_rng {G L}. Arguments seeded {G L}. Arguments randint {G L}. Arguments fresh {G L}.
(** self._random_state of a distribution: absent, numpy's global RandomState (what scipy sets when the
    distribution is created), its own RandomState, a Generator. *)
Inductive own (G L : Type) := OwnNone | OwnGlobal | OwnLegacy (l : L) | OwnGen (g : G).
Arguments OwnNone {G L}. Arguments OwnGlobal {G L}. Arguments OwnLegacy {G L}. Arguments OwnGen {G L}.
(** The objects that a call can change; [w_gens] and [w_legacy] belong to the caller. *)
Record world (G L : Type) := { w_global : L; w_own : own G L; w_gens : nat -> G; w_legacy : nat -> L; w_fresh : nat }.
Arguments w_global {G L}. Arguments w_own {G L}. Arguments w_gens {G L}. Arguments w_legacy {G L}. Arguments w_fresh {G L}.
Definition upd {T} (f : nat -> T) (i : nat) (v : T) : nat -> T := fun j => if Nat.eqb j i then v else f j.
Definition set_own {G L} (w : world G L) (o : own G L) : world G L :=
  {| w_global := w_global w; w_own := o; w_gens := w_gens w; w_legacy := w_legacy w; w_fresh := w_fresh w |}.
Definition set_global {G L} (w : world G L) (l : L) : world G L :=
  {| w_global := l; w_own := w_own w; w_gens := w_gens w; w_legacy := w_legacy w; w_fresh := w_fresh w |}.
Definition set_gen {G L} (w : world G L) (i : nat) (g : G) : world G L :=
  {| w_global := w_global w; w_own := w_own w; w_gens := upd (w_gens w) i g; w_legacy := w_legacy w; w_fresh := w_fresh w |}.
Definition set_legacy {G L} (w : world G L) (i : nat) (l : L) : world G L :=
  {| w_global := w_global w; w_own := w_own w; w_gens := w_gens w; w_legacy := upd (w_legacy w) i l; w_fresh := w_fresh w |}.
Definition tick {G L} (w : world G L) : world G L :=
  {| w_global := w_global w; w_own := w_own w; w_gens := w_gens w; w_legacy := w_legacy w; w_fresh := S (w_fresh w) |}.

(** The argument random_state: None, the caller's i-th Generator or RandomState, an integer, anything else. *)
Inductive source := SNone | SGen (i : nat) | SLegacy (i : nat) | SSeed (z : Z) | SOther.
(** distributions.py:234-268: the generator to draw from, and the objects after the draws have left it in
    a state g'.  Seeds other than integers are left out. *)
Definition init_rng {G L} (np : numpy G L) (w : world G L) (s : source) : res (G * (G -> world G L)) :=
  match s with
  | SNone =>
      match w_own w with
      | OwnGen g => Ok (g, fun g' => set_own w (OwnGen g'))
      | OwnGlobal => let '(n, l) := randint np (w_global w) in Ok (default_rng np n, fun g' => set_own (set_global w l) (OwnGen g'))
      | OwnLegacy l0 => let '(n, l) := randint np l0 in Ok (default_rng np n, fun g' => set_own w (OwnGen g'))
      | OwnNone => Ok (fresh np (w_fresh w), fun g' => set_own (tick w) (OwnGen g'))
      end
  | SGen i => Ok (w_gens w i, fun g' => set_gen w i g')
  | SLegacy i => let '(n, l) := randint np (w_legacy w i) in Ok (default_rng np n, fun _ => set_legacy w i l)
  | SSeed z => if z <? 0 then Err ValueError else Ok (default_rng np z, fun _ => w)
  | SOther => Err TypeError
  end.
(** rvs of vonmises_flattopped, jonespewsey (and its sine-skewed and asymmetric forms), inverse_batschelet,
    wrapstable and katojones goes through scipy's rv_continuous.rvs (distributions.py:4289, 5047, 5791, 6291,
    7007, 7762, 8404), which turns the
    argument into a RandomState or Generator for the call and puts self._random_state back. *)
Definition scipy_rng {G L} (np : numpy G L) (w : world G L) (s : source) : res (G * (G -> world G L)) :=
  match s with
  | SNone =>
      match w_own w with
      | OwnGlobal => let '(n, l) := randint np (w_global w) in Ok (default_rng np n, fun _ => set_global w l)
      | OwnLegacy l0 => let '(n, l) := randint np l0 in Ok (default_rng np n, fun _ => set_own w (OwnLegacy l))
      | _ => init_rng np w SNone
      end
  | SSeed z => if (z <? 0) || (2 ^ 32 <=? z) then Err ValueError else Ok (default_rng np (fst (randint np (seeded np z))), fun _ => w)
  | SOther => Err ValueError
  | _ => init_rng np w s
  end.
(** The two families: circularuniform, triangular, cardioid, cartwright, wrapnorm, wrapcauchy and vonmises call
    _rvs themselves (distributions.py:866, 1153, 1590, 2097, 2655, 3127, 3687). *)
Inductive family := Direct | Scipy.
Definition rng_of {G L} (f : family) (np : numpy G L) (w : world G L) (s : source) : res (G * (G -> world G L)) :=
  match f with Direct => init_rng np w s | Scipy => scipy_rng np w s end.
(** np.random.seed(z) and rvs(..., random_state=s), the draws of which are [d]. *)
Inductive op (G A : Type) := Reseed (z : Z) | Rvs (s : source) (d : G -> A * G).
Arguments Reseed {G A}. Arguments Rvs {G A}.
Definition rvs {G L A} (f : family) (np : numpy G L) (w : world G L) (s : source) (d : G -> A * G) : res (A * world G L) :=
  do p <- rng_of f np w s; Ok (fst (d (fst p)), snd p (snd (d (fst p)))).
(** A history of calls on one distribution: what the calls of rvs return, and the objects afterwards. *)
Fixpoint run {G L A} (f : family) (np : numpy G L) (w : world G L) (h : list (op G A)) : list (source * res A) * world G L :=
  match h with
  | [] => ([], w)
  | Reseed z :: h => run f np (if (z <? 0) || (2 ^ 32 <=? z) then w else set_global w (seeded np z)) h
  | Rvs s d :: h =>
      match rvs f np w s d with
      | Ok (x, w') => let '(out, w2) := run f np w' h in ((s, Ok x) :: out, w2)
      | Err e => let '(out, w2) := run f np w h in ((s, Err e) :: out, w2)
      end
  end.
