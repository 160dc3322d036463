(** Property C214: nonparametric_density_estimation. *)
From Verif Require Import Prelude NpModel Desc2Model IntSpec KdeModel KdeSpec KdeProofs KdeEx.

(** ** C214: the kernel density estimate *)
(** The estimate is a probability density on the circle. *)
Theorem C214_density : forall h alpha, 0 < h <= PI -> alpha <> [] -> density (estimate h alpha).
Proof. exact estimate_density. Qed.
Print Assumptions C214_density.
(** For observations in [0, 2 pi] the points returned are it, on the equal-area scale: at 100 angles from
    0 to 2 pi, (radius + f)^2 = radius^2 (1 + pi * estimate). *)
Theorem C214_points_partial : forall alpha h radius, alpha <> [] -> (forall a, In a alpha -> 0 <= a <= 2 * PI) -> 0 < h -> 0 <= radius ->
  length (nonparametric_density_estimation alpha h radius) = 100%nat /\
  forall i, (i < 100)%nat -> exists f, nth i (nonparametric_density_estimation alpha h radius) (0, 0) = (2 * PI * (INR i / 99), f) /\
    0 <= f /\ (radius + f) ^ 2 = radius ^ 2 * (1 + PI * estimate h alpha (2 * PI * (INR i / 99))).
Proof. exact npde_points. Qed.
Print Assumptions C214_points_partial.
(** So the curve encloses half the area of the circle it is drawn around. *)
Theorem C214_area_partial : forall alpha h radius, alpha <> [] -> (forall a, In a alpha -> 0 <= a <= 2 * PI) -> 0 < h <= PI -> 0 <= radius ->
  integral (fun x => ((radius + npde alpha h radius x) ^ 2 - radius ^ 2) / 2) 0 (2 * PI) (PI * radius ^ 2 / 2).
Proof. exact npde_area. Qed.
Print Assumptions C214_area_partial.
(** Not so for other names of the directions: an observation at -90 degrees counts at 360 degrees, a
    quarter turn away, although the bandwidth is 1 radian. *)
Theorem C214_refuted : exists alpha h i f, alpha <> [] /\ 0 < h <= PI /\ (i < 100)%nat /\
  nth i (nonparametric_density_estimation alpha h 1) (0, 0) = (2 * PI * (INR i / 99), f) /\
  (1 + f) ^ 2 <> 1 ^ 2 * (1 + PI * estimate h alpha (2 * PI * (INR i / 99))).
Proof. exact kde_refuted. Qed.
Print Assumptions C214_refuted.
(** A bandwidth above half a turn gives an estimate of total less than 1 ... *)
Theorem C214_wide : forall h alpha, PI < h -> alpha <> [] -> exists v, v < 1 /\ integral (estimate h alpha) 0 (2 * PI) v.
Proof. exact estimate_wide. Qed.
Print Assumptions C214_wide.
(** ... and compute_smooth_params returns such, as for 32 observations with mean resultant length 1/16. *)
Theorem C214_bandwidth_refuted : exists r n h, compute_smooth_params r n = Ok h /\ forall alpha, alpha <> [] -> exists v, v < 1 /\ integral (estimate h alpha) 0 (2 * PI) v.
Proof. exact smooth_refuted. Qed.
Print Assumptions C214_bandwidth_refuted.
Example C214_ex : [0; PI / 2; 2 * PI] <> [] /\ (forall a, In a [0; PI / 2; 2 * PI] -> 0 <= a <= 2 * PI) /\ 0 < 1 <= PI /\ estimate 1 [0; PI / 2; 2 * PI] 0 = 5 / 8.
Proof. exact ex_kde. Qed.
