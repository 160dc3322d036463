(** Specification vocabulary for the utils properties. *)
From Verif Require Import Prelude CircleSpec.
Local Open Scope string_scope.
Open Scope R_scope.

(** How strong a significance mark is. *)
Definition mark_rank (s : string) : nat :=
  if String.eqb s "***" then 4
  else if String.eqb s "**" then 3
  else if String.eqb s "*" then 2
  else if String.eqb s "." then 1
  else 0.

(** Length of a full cycle in the three supported units. *)
Definition cycle_of (unit : string) (K : R) : Prop :=
  (unit = "degree" /\ K = 360) \/ (unit = "radian" /\ K = 2 * PI) \/
  (unit = "hour" /\ K = 24).
