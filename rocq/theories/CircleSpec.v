(** Independent specification of directions on the circle.  Nothing here refers
    to the model of the Python code. *)
From Verif Require Import Prelude.

(** [a] and [b] (radians) name the same direction. *)
Definition same_dir (a b : R) : Prop := exists k : Z, a = b + 2 * PI * IZR k.

(** [y] is the representative of [x] modulo [span] in [lo, lo + span). *)
Definition is_rep (lo span x y : R) : Prop :=
  lo <= y < lo + span /\ exists k : Z, x = y + span * IZR k.

(** [d] is the length of the shorter arc between [a] and [b]: the least absolute
    difference over all ways of naming the two directions. *)
Definition is_arc_dist (a b d : R) : Prop :=
  (exists k : Z, d = Rabs (a - b + 2 * PI * IZR k)) /\
  (forall k : Z, d <= Rabs (a - b + 2 * PI * IZR k)).

(** Walking counter-clockwise from [lb], one meets [v] no later than [ub]:
    [ub] is first reached after turning by some [u] in [0, 2 pi), and [v] after
    turning by some [t] with 0 <= t <= u. *)
Definition on_ccw_arc (v lb ub : R) : Prop :=
  exists t u : R, 0 <= t <= u /\ u < 2 * PI /\
    same_dir v (lb + t) /\ same_dir ub (lb + u).

(** [a] lies on the arc that starts at [lo] and turns counter-clockwise by [L]. *)
Definition in_arc (lo L a : R) : Prop := exists t, 0 <= t <= L /\ same_dir a (lo + t).
(** At least [k] of the listed directions (counted with repetition) lie on the arc. *)
Definition arc_holds (dirs : list R) (lo L : R) (k : nat) : Prop :=
  exists inside outside, Permutation dirs (inside ++ outside) /\
    (k <= length inside)%nat /\ Forall (in_arc lo L) inside.
