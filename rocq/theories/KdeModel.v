(** Model of descriptive.py's kernel density estimate on its grid; [npde] and [compute_smooth_params] are
    in Desc2Model. *)
From Verif Require Import Prelude Desc2Model VzModel.

(** descriptive.py:1661-1702 [nonparametric_density_estimation]: the pairs (x, f). *)
Definition nonparametric_density_estimation (alpha : list R) (h radius : R) : list (R * R) :=
  map (fun x => (x, npde alpha h radius x)) (linspace 0 (2 * PI) 100).
