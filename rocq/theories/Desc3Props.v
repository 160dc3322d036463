(** Further properties of the descriptive functions: grouped-data correction (C15),
    metric names (C16) and A1inv (C93).  Each theorem is closed by a proved lemma. *)
From Verif Require Import Prelude CircleSpec NpModel UtilsModel DescModel DescSpec DescApi
  Desc2Model Desc5Proofs Desc9Proofs.

(** C15, data grouped in arcs of b radians: all four measures use the mean resultant
    length corrected for grouping. *)
Theorem C15_bin_size : forall r b, 0 < r -> 0 < b < 2 * PI -> r * (b / 2) <= sin (b / 2) ->
  let v := 1 - r * (b / 2) / sin (b / 2) in
  exists s t, circ_var None None (Some r) (Some b) = Ok v /\ angular_var None None (Some r) (Some b) = Ok (2 * v) /\
    angular_std None None (Some r) (Some b) = Ok (Fin s) /\ circ_std None None (Some r) (Some b) = Ok (Fin t) /\
    0 <= v < 1 /\ 0 <= s /\ s * s = 2 * v /\ 0 <= t /\ 1 - v = exp (- (t * t) / 2).
Proof. exact spread_bins. Qed.
Print Assumptions C15_bin_size.
Example C15_bin_size_example : 0 < 1/2 /\ 0 < PI < 2 * PI /\ 1/2 * (PI / 2) <= sin (PI / 2).
Proof. exact ex_bins. Qed.

(** C16 *)
Theorem C16_metric_names :
  metric_of_name "center" = Ok Center /\ metric_of_name "geodesic" = Ok Geodesic /\
  metric_of_name "angularseparation" = Ok AngSep /\ metric_of_name "chord" = Ok Chord /\
  forall s, ~ In s ["center"; "geodesic"; "angularseparation"; "chord"]%string -> metric_of_name s = Err ValueError.
Proof. exact metric_names. Qed.
Print Assumptions C16_metric_names.
Example C16_metric_names_example : ~ In "arc"%string ["center"; "geodesic"; "angularseparation"; "chord"]%string.
Proof. simpl. intuition discriminate. Qed.

(** C93 *)
Theorem C93_same_as_circ_kappa : forall r, 0 <= r < 1 -> circ_kappa r None = Ok (A1inv r).
Proof. exact A1inv_kappa. Qed.
Print Assumptions C93_same_as_circ_kappa.
(** Full statement of monotonicity: for all 0 <= r <= r' < 1.  Proved within the two
    stretches below and above 0.85; false across 0.85. *)
Theorem C93_monotone_partial : forall r r', 0 <= r <= r' -> (r' < 85/100 \/ (85/100 <= r /\ r' < 1)) ->
  0 <= A1inv r <= A1inv r'.
Proof. exact A1inv_mono. Qed.
Print Assumptions C93_monotone_partial.
Theorem C93_monotone_refuted : A1inv 0 = 0 /\ exists r r', 0 <= r /\ r < r' /\ r' < 1 /\ A1inv r' < A1inv r.
Proof. exact A1inv_drop. Qed.
Print Assumptions C93_monotone_refuted.
Example C93_example : 0 <= 6/10 <= 7/10 /\ 7/10 < 85/100.
Proof. lra. Qed.
