(** C226: times of day. *)
From Verif Require Import Prelude UtilsModel ClockModel ClockSpec ClockProofs.
From Coq Require Import String Ascii.
Import ListNotations.
Open Scope list_scope.
Open Scope R_scope.

Theorem C226_times : forall float sep (ts : list (string * string)), reads_numerals float -> ~ digit sep -> ts <> [] ->
  Forall (fun t => numeral (fst t) /\ numeral (snd t)) ts ->
  time2float float sep (map (fun t => fst t ++ String sep (snd t))%string ts) = Ok (map (fun t => INR (value (fst t)) + INR (value (snd t)) / 60) ts).
Proof. exact clock_list. Qed.
Print Assumptions C226_times.
(** Whatever is converted has one separator in every entry. *)
Theorem C226_fields : forall float sep xs l, time2float float sep xs = Ok l -> xs <> [] /\ List.length l = List.length xs /\ Forall (fun s => occurs sep s = 1%nat) xs.
Proof. exact clock_fields. Qed.
Print Assumptions C226_fields.
(** Times are ordered as on the clock; on a circle of 24 hours minute k of the day is at 2 pi k / 1440. *)
Theorem C226_clock : forall float sep hh mm hh' mm' a a', reads_numerals float -> ~ digit sep -> numeral hh -> numeral mm -> numeral hh' -> numeral mm' ->
  (value mm < 60)%nat -> (value mm' < 60)%nat ->
  time2float float sep [hh ++ String sep mm; hh' ++ String sep mm']%string = Ok [a; a'] ->
  (a < a' <-> (60 * value hh + value mm < 60 * value hh' + value mm')%nat) /\ data2rad a 24 = 2 * PI * INR (60 * value hh + value mm) / 1440.
Proof. exact clock_day. Qed.
Print Assumptions C226_clock.
Example C226_example : exists float, reads_numerals float /\ ~ digit ":" /\ numeral "12" /\ numeral "45" /\ (value "45" = 45)%nat /\
  time2float float ":" ["12:45"%string] = Ok [INR 12 + INR 45 / 60].
Proof.
  exists read. split; [exact read_ok|]. assert (N : ~ digit ":") by (unfold digit; cbn; lia). split; [exact N|].
  assert (A : numeral "12") by (split; [discriminate|unfold digit; cbn; lia]). assert (B : numeral "45") by (split; [discriminate|unfold digit; cbn; lia]).
  split; [exact A|]. split; [exact B|]. split; [reflexivity|]. exact (C226_times read ":"%char [("12", "45")]%string read_ok N ltac:(discriminate) (Forall_cons ("12", "45")%string (conj A B) (Forall_nil _))).
Qed.
