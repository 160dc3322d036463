(** Specification vocabulary for medians, intervals and quantiles. *)
From Verif Require Import Prelude CircleSpec NpModel Desc2Model.

(** Length of the shorter arc between two directions. *)
Definition arc_len (a b : R) : R := acos (cos (a - b)).
(** Mean arc from the observations to direction b, rounded to 5 decimals. *)
Definition mean_arc5 (alpha : list R) (b : R) : R :=
  round5 (Rsum (map (fun a => arc_len a b) alpha) / INR (length alpha)).
(** All the angles are given within one turn of each other. *)
Definition within_turn (alpha : list R) : Prop :=
  forall a b, In a alpha -> In b alpha -> Rabs (a - b) <= 2 * PI.

(** The answer of the median with every angle changed by f. *)
Definition med_map (f : R -> R) (m : medout) : medout :=
  match m with MNaN => MNaN | MOne a => MOne (f a) | MMany l => MMany (map f l) end.
(** Same answer up to whole turns. *)
Definition med_dir (m m' : medout) : Prop :=
  match m, m' with
  | MNaN, MNaN => True
  | MOne a, MOne b => same_dir a b
  | MMany l, MMany l' => Forall2 same_dir l l'
  | _, _ => False
  end.

(** How many of n observations an HDI of level ci must hold. *)
Definition hdi_window (ci : R) (n : nat) : nat := Nat.max 1 (Z.to_nat (Rfloor (ci * INR n))).
(** L is the least length of an arc that holds all the directions. *)
Definition least_cover (alpha : list R) (L : R) : Prop :=
  0 <= L /\ (exists lo, arc_holds alpha lo L (length alpha)) /\
  (forall lo L', 0 <= L' -> arc_holds alpha lo L' (length alpha) -> L <= L').

(** (lb, ub) bounds the arc of half-width d centred at m. *)
Definition centred_arc (m d lb ub : R) : Prop :=
  0 <= d <= PI / 2 /\ same_dir lb (m - d) /\ same_dir ub (m + d).

(** d is the signed angle in (-pi, pi] from direction m to direction a. *)
Definition offset_from (m a d : R) : Prop := - PI < d <= PI /\ same_dir d (a - m).

(** How many observations lie below x after rounding to 5 decimals. *)
Fixpoint below (x : R) (l : list R) : nat :=
  match l with [] => 0 | y :: t => (if Rltb (round5 y) (round5 x) then 1 else 0) + below x t end%nat.
(** The position, in the sorted sample, of the upper end of the median interval,
    before it is wrapped: [z] is the normal quantile, [tie] tells whether some
    observation equals the median to 5 decimals. *)
Definition upper_index (alpha : list R) (median z : R) (tie : bool) : Z :=
  ((if Nat.eqb (below median alpha) 0 then Z.of_nat (length alpha) - 1
    else Z.of_nat (below median alpha) - 1)
   + (1 + Rfloor (/ 2 * sqrt (IZR (Z.of_nat (length alpha))) * z))
   + (if tie then 1 else 0))%Z.
Definition ties_median (alpha : list R) (median : R) (tie : bool) : Prop :=
  tie = true <-> exists y, In y alpha /\ round5 y = round5 median.
