(** Model of pycircstat2/utils.py. *)
From Verif Require Import Prelude NpModel.
Local Open Scope string_scope.
Open Scope R_scope.

(** utils.py:10-31 [data2rad]: 2 * pi * data / k (one element). *)
Definition data2rad (x k : R) : R := 2 * PI * x / k.

(** utils.py:34-40 [rad2data]: identity when k is None, else k * rad / (2 pi). *)
Definition rad2data (x : R) (k : option R) : R :=
  match k with None => x | Some k => k * x / (2 * PI) end.

(** utils.py:78-88, body of [angmod] once the bounds are accepted (one element;
    the array branch at 83-84 does the same element-wise). *)
Definition angmod_val (rad bound_min bound_max : R) : R :=
  let bound_span := bound_max - bound_min in
  let result := pymod (pymod (rad - bound_min) bound_span + bound_span) bound_span + bound_min in
  if Reqb result bound_max then bound_min else result.

(** utils.py:55-88 [angmod] with its argument check (73-76). *)
Definition angmod (rad : R) (bounds : list R) : res R :=
  match bounds with
  | [b0; b1] => if Rleb b1 b0 then Err ValueError else Ok (angmod_val rad b0 b1)
  | _ => Err ValueError
  end.

(** angmod with its default bounds [0, 2 pi] (utils.py:56); these pass the check. *)
Definition angmod0 (rad : R) : R := angmod_val rad 0 (2 * PI).

(** utils.py:91-119 [angular_distance] (one element of a). *)
Definition angular_distance (a b : R) : R :=
  let c := angmod0 (a - b) in
  let d := 2 * PI - c in
  Rmin c d.

(** utils.py:122-133 [significance_code]. *)
Definition significance_code (p : R) : string :=
  if Rltb p (1/1000) then "***"
  else if Rltb p (1/100) then "**"
  else if Rltb p (5/100) then "*"
  else if Rltb p (1/10) then "."
  else "".

(** utils.py:164-191 [is_within_circular_range]. *)
Definition is_within_circular_range (value lb ub : R) : bool :=
  let value := pymod value (2 * PI) in
  let lb := pymod lb (2 * PI) in
  let ub := pymod ub (2 * PI) in
  if Rleb lb ub then Rleb lb value && Rleb value ub
  else Rleb lb value || Rleb value ub.

(** utils.py:211-218: number of intervals of the cycle for a unit name. *)
Definition unit_cycle (unit : string) : option R :=
  if String.eqb unit "degree" then Some 360
  else if String.eqb unit "radian" then Some (2 * PI)
  else if String.eqb unit "hour" then Some 24
  else None.

(** utils.py:193-230 [rotate_data]. *)
Definition rotate_data (alpha : list R) (angle : R) (unit : string) : res (list R) :=
  match unit_cycle unit with
  | None => Err ValueError
  | Some n_intervals =>
      let angle_rad := data2rad angle n_intervals in
      Ok (map (fun a => rad2data (angmod0 (data2rad a n_intervals + angle_rad))
                                 (Some n_intervals)) alpha)
  end.

(** utils.py:236-242 [A1inv].  The first test is 0 <= R < 0.53, so a negative
    argument falls through to the second branch. *)
Definition A1inv (r : R) : R :=
  if Rleb 0 r && Rltb r (53/100) then 2 * r + r ^ 3 + (5 * r ^ 5) / 6
  else if Rltb r (85/100) then - (4/10) + (139/100) * r + (43/100) / (1 - r)
  else 1 / (r ^ 3 - 4 * r ^ 2 + 3 * r).
