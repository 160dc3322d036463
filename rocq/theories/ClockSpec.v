(** Specification vocabulary for times of day. *)
From Verif Require Import Prelude.
From Coq Require Import String Ascii.
Import ListNotations.
Open Scope list_scope.
Open Scope R_scope.

Definition digit (a : ascii) : Prop := (48 <= nat_of_ascii a <= 57)%nat.
Fixpoint all_chars (P : ascii -> Prop) (s : string) : Prop :=
  match s with EmptyString => True | String a t => P a /\ all_chars P t end.
(** A decimal numeral and its value. *)
Definition numeral (s : string) : Prop := s <> EmptyString /\ all_chars digit s.
Fixpoint value_from (acc : nat) (s : string) : nat :=
  match s with EmptyString => acc | String a t => value_from (10 * acc + (nat_of_ascii a - 48)) t end.
Definition value (s : string) : nat := value_from 0 s.
(** float() reads numerals. *)
Definition reads_numerals (float : string -> option R) : Prop := forall s, numeral s -> float s = Some (INR (value s)).
(** Occurrences of a character. *)
Fixpoint occurs (c : ascii) (s : string) : nat :=
  match s with EmptyString => 0 | String a t => (if Ascii.eqb a c then 1 else 0) + occurs c t end.
