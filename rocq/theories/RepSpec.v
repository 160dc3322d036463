(** Specification vocabulary for the printed summary. *)
From Verif Require Import Prelude DescSpec BaseModel BaseSpec RepModel.
Open Scope R_scope.

(** The printed direction [M], on a cycle of length [v], is the direction of the weighted resultant of
    readings [d]; NaN only when the resultant is shorter than 1e-12 of the total weight. *)
Definition reads_mean (v : R) (d w : list R) (M : fl) : Prop :=
  let C := wsum (fun y => cos (angle_of v y)) d w in let S := wsum (fun y => sin (angle_of v y)) d w in
  match M with
  | Fin M => 0 <= M < v /\ exists rho, 0 < rho /\ C = rho * cos (angle_of v M) /\ S = rho * sin (angle_of v M)
  | NaN => sqrt (C * C + S * S) <= / 1000000000000 * Rsum w
  | _ => False
  end.
(** Lengths and directions multiplied by [c]. *)
Definition times (c : R) (a b : fl) : Prop :=
  match a, b with Fin x, Fin y => y = c * x | Fin _, _ | _, Fin _ => False | _, _ => a = b end.
Definition bounds_times {L} (c : R) (a b : option (L * R * R)) : Prop :=
  match a, b with
  | Some (l, lo, up), Some (l', lo', up') => l' = l /\ lo' = c * lo /\ up' = c * up
  | None, None => True
  | _, _ => False
  end.
(** The same summary in another unit: angles multiplied by [c], everything else (but the unit) equal. *)
Definition rescaled (c : R) (s s' : report) : Prop :=
  s_grouped s' = s_grouped s /\ s_clusters s' = s_clusters s /\ s_n s' = s_n s /\
  times c (s_mean s) (s_mean s') /\ s_pval s' = s_pval s /\ s_mark s' = s_mark s /\ bounds_times c (s_mean_ci s) (s_mean_ci s') /\
  times c (s_median s) (s_median s') /\ bounds_times c (s_median_ci s) (s_median_ci s') /\
  times c (s_s s) (s_s s') /\ times c (s_s0 s) (s_s0 s') /\ s_r s' = s_r s /\ s_kappa s' = s_kappa s /\
  s_skewness s' = s_skewness s /\ s_kurtosis s' = s_kurtosis s /\ s_median_method s' = s_median_method s /\ s_ci_method s' = s_ci_method s.
(** Same exception, or summaries related by [rescaled]. *)
Definition rescaled_outcome (c : R) (a b : res report) : Prop :=
  match a, b with Ok s, Ok s' => rescaled c s s' | Err e, Err e' => e = e' | _, _ => False end.
