(** Vocabulary for configurations: values at a path of keys, and dictionaries with distinct keys. *)
From Coq Require Import String.
From Verif Require Import Prelude NpModel BaseModel VzModel.
Import ListNotations.
Open Scope R_scope.
Open Scope list_scope.

(** v[k1][k2]...[kn], if every step is a key of a dictionary. *)
Fixpoint look (v : cval) (path : list string) : option cval :=
  match path with
  | [] => Some v
  | k :: t => match v with VDict d => match dget k d with Some x => look x t | None => None end | _ => None end
  end.
(** No dictionary inside v has a key twice. *)
Fixpoint distinct_keys (v : cval) : Prop :=
  match v with
  | VDict l => NoDup (map fst l) /\ (fix all (l : list (string * cval)) : Prop := match l with [] => True | (_, x) :: t => distinct_keys x /\ all t end) l
  | _ => True
  end.
Definition is_dict (v : cval) : Prop := exists d, v = VDict d.
(** The i-th of k equal bins of the circle; the last one contains 2 pi. *)
Definition in_bin (k i : nat) (a : R) : bool :=
  Rleb (INR i * (2 * PI / INR k)) a && (if Nat.eqb (S i) k then Rleb a (INR (S i) * (2 * PI / INR k)) else Rltb a (INR (S i) * (2 * PI / INR k))).
(** The dictionary given as `config`; None is {}. *)
Definition given (config : option dict) : dict := match config with Some d => d | None => [] end.
(** The curve (t, f t) at n evenly spaced angles t from 0 to 2 pi. *)
Definition drawn (n : nat) (f : R -> R) (curve : list (R * R)) : Prop :=
  List.length curve = n /\ forall i, (i < n)%nat -> nth i curve (0, 0) = (2 * PI * (INR i / INR (n - 1)), f (2 * PI * (INR i / INR (n - 1)))).
