(** Specification vocabulary for the level of the median's interval. *)
From Verif Require Import Prelude CircleSpec.

(** An observation on one side of [m] within the turn [0, 2 pi): above for true, below for false. *)
Definition side (m : R) (b : bool) (a : R) : Prop := if b then m < a < 2 * PI else 0 <= a < m.
(** A sample of [n] observations for each choice of their sides of [m].  When [m] is the median of a law
    without atoms the sides of independent observations are fair coins: all 2 ^ n choices are equally
    likely. *)
Definition drawn_about (m : R) (n : nat) (X : list bool -> list R) : Prop :=
  forall s, length s = n -> Forall2 (side m) s (X s).
(** The probability, over the choices of sides, that the interval [I] covers the direction [m]: [good]
    lists the choices for which it does. *)
Definition coverage (n : nat) (m : R) (I : list bool -> R -> R -> Prop) (q : R) : Prop :=
  exists good, NoDup good /\
    (forall s, In s good <-> length s = n /\ exists lo up, I s lo up /\ on_ccw_arc m lo up) /\
    q = INR (length good) / 2 ^ n.
