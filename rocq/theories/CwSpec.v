(** What the gamma and beta functions of scipy.special and scipy.optimize.minimize are, on the
    arguments the code uses. *)
From Verif Require Import Prelude IntSpec CircleSpec.

(** The gamma function on the positive reals (Bohr and Mollerup). *)
Definition is_gamma (g : R -> R) : Prop :=
  g 1 = 1 /\ (forall x, 0 < x -> 0 < g x /\ g (x + 1) = x * g x) /\
  (forall x y t, 0 < x -> 0 < y -> 0 <= t <= 1 -> ln (g (t * x + (1 - t) * y)) <= t * ln (g x) + (1 - t) * ln (g y)).
Definition is_gammaln (l g : R -> R) : Prop := forall x, 0 < x -> l x = ln (g x).
(** The digamma function is the derivative of the logarithm of the gamma function. *)
Definition is_digamma (d g : R -> R) : Prop := forall x, 0 < x -> derivable_pt_lim (fun y => ln (g y)) x (d x).
(** The regularised incomplete beta function with first argument 1/2, and its complete integral:
    beta(1/2, b) (I(v) - I(u)) is the integral of t^(-1/2) (1 - t)^(b - 1) from u to v. *)
Definition is_betainc (beta : R -> R -> R) (I : R -> R -> R -> R) : Prop :=
  forall b, 1 / 2 < b ->
    I (1 / 2) b 0 = 0 /\ I (1 / 2) b 1 = 1 /\ (forall x, 0 <= x <= 1 -> 0 <= I (1 / 2) b x <= 1) /\
    (forall e, 0 < e -> exists d, 0 < d /\ forall x, 0 <= x <= 1 -> (x < d -> I (1 / 2) b x < e) /\ (1 - d < x -> 1 - e < I (1 / 2) b x)) /\
    (forall u v, 0 < u -> u <= v -> v < 1 ->
      integral (fun t => Rpower t (- (1 / 2)) * Rpower (1 - t) (b - 1)) u v (beta (1 / 2) b * (I (1 / 2) b v - I (1 / 2) b u))).
Definition is_betaincinv (I J : R -> R -> R -> R) : Prop :=
  forall b u, 1 / 2 < b -> 0 <= u <= 1 -> 0 <= J (1 / 2) b u <= 1 /\ I (1 / 2) b (J (1 / 2) b u) = u.
(** A bounded optimiser: what it reports is the objective at a point within the bounds, no worse
    than at the start. *)
Definition bounded_min (minimize : (R -> R -> fl) -> R -> R -> option (R * R * fl)) : Prop :=
  forall obj a b m z v, minimize obj a b = Some (m, z, v) ->
    0 <= m <= 2 * PI /\ / 10 ^ 6 <= z <= 10 ^ 6 /\ v = obj m z /\ forall x y, v = Fin x -> obj a b = Fin y -> x <= y.
