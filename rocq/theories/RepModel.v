(** Model of Circular.__repr__, which summary() and str() return (pycircstat2/base.py:316-427): the
    numbers of each line before they are rounded for printing. *)
From Verif Require Import Prelude NpModel UtilsModel DescModel Desc2Model BaseModel LevModel.
From Coq Require Import String.
Open Scope R_scope.

(** rad2data(x, k=full_cycle) of a number that may be NaN (utils.py:34-40). *)
Definition in_unit (v : R) (a : fl) : fl := match a with Fin x => Fin (rad2data x (Some v)) | a => a end.
(** The lines: grouped; the number of clusters (absent without a mixture); unit; sample size; mean,
    p-value and mark; level and bounds of the mean's interval; median; level and bounds of the median's
    interval; angular deviation; circular standard deviation; r; kappa; skewness; kurtosis; the methods
    of the median and of the mean's interval. *)
Record report := {
  s_grouped : bool; s_clusters : option nat; s_unit : string; s_n : Z;
  s_mean : fl; s_pval : R; s_mark : string; s_mean_ci : option (fl * R * R);
  s_median : fl; s_median_ci : option (R * R * R);
  s_s : fl; s_s0 : fl; s_r : R; s_kappa : R; s_skewness : fl; s_kurtosis : fl;
  s_median_method : option string; s_ci_method : option string }.
(** base.py:289-290: skewness and kurtosis are 0 / 0 for coinciding observations. *)
Definition moment_ratio (f : wsample -> R) (o : circ_obj) : fl :=
  if Reqb (o_r o) 1 then NaN else Fin (f (combine (o_alpha o) (o_w o))).
(** base.py:316-363.  [clusters] is the line "Unimodal?" (ModesModel.reported).  Formatting an array of
    medians with .02f is a TypeError. *)
Definition repr (unit : string) (km : kmedian) (clusters : option nat) (o : circ_obj) : res report :=
  let v := o_cycle o in
  do median <- match o_median o with
               | MNaN => Ok NaN
               | MOne m => Ok (Fin (rad2data m (Some v)))
               | MMany _ => Err TypeError
               end;
  Ok {| s_grouped := o_grouped o; s_clusters := clusters; s_unit := unit; s_n := o_n o;
        s_mean := in_unit v (o_mean o); s_pval := o_pval o; s_mark := significance_code (o_pval o);
        s_mean_ci := match o_mean_ci o with
                     | Some (lo, up) => Some (o_level o, rad2data lo (Some v), rad2data up (Some v))
                     | None => None
                     end;
        s_median := median;
        s_median_ci := match o_median_ci o with
                       | Some (Some (lo, up)) =>
                           Some (median_ci_level (List.length (o_alpha o)) (95/100), rad2data lo (Some v), rad2data up (Some v))
                       | _ => None
                       end;
        s_s := in_unit v (o_s o); s_s0 := in_unit v (o_s0 o); s_r := o_r o; s_kappa := o_kappa o;
        s_skewness := moment_ratio circ_skewness o; s_kurtosis := moment_ratio circ_kurtosis o;
        s_median_method := km_method km; s_ci_method := o_method o |}.
(** Circular(...).summary() with n_clusters_max = 1. *)
Definition summary (x : ext) (g : args) : res report :=
  do o <- circular x g; repr (a_unit g) (a_median g) None (fst o).
