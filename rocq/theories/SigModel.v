(** Model of TestResult.significance (pycircstat2/hypothesis.py:91-104). *)
From Verif Require Import Prelude UtilsModel.
From Coq Require Import String.
Open Scope R_scope.

(** The value of an attribute: None, or an object with the outcome of float(value), None for the TypeError or
    ValueError it raises (hypothesis.py:101-104). *)
Inductive attr := ANone | AVal (float : option fl).
(** significance_code of a float (utils.py:122-133): every comparison with NaN is False. *)
Definition code_fl (p : fl) : string :=
  match p with
  | Fin p => significance_code p
  | NInf => "***"
  | PInf | NaN => ""
  end.
(** hypothesis.py:91-104; the result is its attributes by name, None if hasattr is False. *)
Definition significance (result : string -> option attr) (name : string) : option string :=
  match result name with
  | None | Some ANone => None
  | Some (AVal None) => None
  | Some (AVal (Some p)) => Some (code_fl p)
  end.
