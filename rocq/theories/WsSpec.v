(** The wrapped stable law. *)
From Verif Require Import Prelude IntSpec CircleSpec.

(** Nolan's continuous (S0) parametrisation: for a frequency t > 0 the characteristic function
    has modulus exp (- (gamma t)^alpha) and this phase. *)
Definition stable_modulus (alpha gamma t : R) : R := exp (- Rpower (gamma * t) alpha).
Definition stable_phase (delta alpha beta gamma t : R) : R :=
  if Reqb alpha 1 then delta * t - 2 / PI * beta * (gamma * t) * ln (gamma * t)
  else delta * t + beta * tan (PI * alpha / 2) * (Rpower (gamma * t) alpha - gamma * t).
