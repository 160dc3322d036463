(** Model of cartwright._moment_r (pycircstat2/distributions.py:1769-1783). *)
From Verif Require Import Prelude NpModel.

(** distributions.py:1774-1781 for one zeta; [gammaln] is an argument. *)
Definition cw_log_r (gammaln : R -> R) (z : R) : R :=
  let inv := 1 / z in
  (- 1 + 2 * inv) * ln 2 + ln 2 + ln (inv ^ 2 / (inv + 1)) + gammaln inv + gammaln (inv + 1 / 2)
  - 1 / 2 * ln PI - gammaln (1 + 2 * inv).
(** distributions.py:1771-1783. *)
Definition cw_moment_r (gammaln : R -> R) (zeta : list R) : res (list R) :=
  if existsb (fun z => Rleb z 0) zeta then Err ValueError else Ok (map (fun z => exp (cw_log_r gammaln z)) zeta).
