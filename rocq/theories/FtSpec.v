(** What the theorems on the tabulated distributions assume of scipy, and what their users rely on. *)
From Verif Require Import Prelude IntSpec CircleSpec.

(** [pchip N xs ys] passes through the N + 1 nodes, is continuous between them, and between two
    neighbouring nodes it increases if the data do and is constant if they are (PchipInterpolator
    preserves the shape of the data). *)
Definition is_pchip (pchip : nat -> (nat -> R) -> (nat -> R) -> R -> R) : Prop :=
  forall N xs ys, (0 < N)%nat -> (forall i, (i < N)%nat -> xs i < xs (S i)) ->
    (forall i, (i <= N)%nat -> pchip N xs ys (xs i) = ys i) /\
    (forall x, xs 0%nat <= x <= xs N -> continuity_pt (pchip N xs ys) x) /\
    (forall i a b, (i < N)%nat -> ys i < ys (S i) -> xs i <= a -> a < b -> b <= xs (S i) -> pchip N xs ys a < pchip N xs ys b) /\
    (forall i a, (i < N)%nat -> ys i = ys (S i) -> xs i <= a <= xs (S i) -> pchip N xs ys a = ys i).
(** [root f a b] is a root of [f] in [a, b] whenever the continuous [f] is not positive at [a] and not negative at [b]. *)
Definition is_root (root : (R -> R) -> R -> R -> R) : Prop :=
  forall f a b, a < b -> (forall x, continuity_pt f x) -> f a <= 0 <= f b -> a <= root f a b <= b /\ f (root f a b) = 0.

(** The logarithm of the shape of the flat-topped von Mises density at distance [d] from its centre. *)
Definition flat_shape (kappa nu d : R) : R := exp (kappa * cos (d + nu * sin d)).
(** [f] is proportional to [s]. *)
Definition proportional (f s : R -> R) : Prop := forall x y, f x * s y = f y * s x.
