(** Model of the level that circ_median_ci returns with its bounds (descriptive.py:1265-1344); the bounds
    are in Desc2Model. *)
From Verif Require Import Prelude Desc2Model.

(** descriptive.py:1302-1344: the third value returned.  Below 3 and above 15 observations it is the
    level asked for. *)
Definition median_ci_level (n : nat) (ci : R) : R :=
  match n with
  | 3%nat => 75/100 | 4%nat => 875/1000 | 5%nat => 937/1000 | 6%nat => 97/100
  | 7%nat => 984/1000 | 8%nat => 992/1000 | 9%nat => 996/1000 | 10%nat => 978/1000
  | 11%nat => 99/100 | 12%nat => 962/1000 | 13%nat => 978/1000 | 14%nat => 937/1000
  | 15%nat => 965/1000 | _ => ci
  end.
(** descriptive.py:1217-1344 with the median given: (lower, upper, level).  [z] stands for
    norm.ppf(1 - (1 - ci) / 2). *)
Definition median_ci_full (alpha : list R) (median z ci : R) : res (option (R * R) * R) :=
  do p <- circ_median_ci alpha median z; Ok (p, median_ci_level (length alpha) ci).
