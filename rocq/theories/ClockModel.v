(** Model of time2float (pycircstat2/utils.py:43-52). *)
From Verif Require Import Prelude HypMultiModel.
From Coq Require Import String Ascii.
Import ListNotations.
Open Scope list_scope.
Open Scope R_scope.

(** x.split(sep) for a separator of one character (utils.py:48). *)
Fixpoint split_on (c : ascii) (s : string) : list string :=
  match s with
  | EmptyString => [EmptyString]
  | String a t =>
      if Ascii.eqb a c then EmptyString :: split_on c t
      else match split_on c t with
           | f :: r => String a f :: r
           | [] => [String a EmptyString]
           end
  end.
(** utils.py:46-49: two fields, or the unpacking is a ValueError; [float] is Python's float(str), None for
    its ValueError. *)
Definition t2f (float : string -> option R) (sep : ascii) (x : string) : res R :=
  match split_on sep x with
  | [hr; mn] => match float hr, float mn with Some h, Some m => Ok (h + m / 60) | _, _ => Err ValueError end
  | _ => Err ValueError
  end.
(** utils.py:51-52: np.vectorize, which refuses an input of size 0. *)
Definition time2float (float : string -> option R) (sep : ascii) (xs : list string) : res (list R) :=
  match xs with [] => Err ValueError | _ => rmap (t2f float sep) xs end.
