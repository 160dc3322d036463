(** Properties C209-C213, C215: circ_plot. *)
From Coq Require Import String.
From Verif Require Import Prelude NpModel CircleSpec UtilsModel DescModel Desc2Model HypMultiModel BaseModel BaseSpec BaseEx VzModel VzSpec VzProofs Vz2Proofs Vz3Proofs Vz4Proofs VzEx.
Import ListNotations.
Open Scope R_scope.
Open Scope list_scope.

(** ** C209: the configuration of a plot *)
(** A value the user gives, at any depth, is the value used.  True stands for "the default" at the
    first level, so it is only claimed at even depths, such as {"rose": {"counts": True}}. *)
Theorem C209_override_partial : forall defaults overrides merged path a, distinct_keys (VDict overrides) -> merge_dicts defaults (VDict overrides) = Draw merged ->
  look (VDict overrides) path = Some a -> ~ is_dict a -> (a = VBool true -> Nat.even (List.length path) = true) -> look (VDict merged) path = Some a.
Proof. intros d o m p a. exact (merge_override (List.length p) p d o m a (le_n _)). Qed.
Print Assumptions C209_override_partial.
(** A default the user does not mention is kept. *)
Theorem C209_keeps : forall defaults overrides merged path a, distinct_keys (VDict overrides) -> merge_dicts defaults (VDict overrides) = Draw merged ->
  look (VDict defaults) path = Some a -> look (VDict overrides) path = None ->
  (forall before after v, path = before ++ after -> look (VDict overrides) before = Some v -> is_dict v) -> look (VDict merged) path = Some a.
Proof. intros d o m p a. exact (merge_keeps (List.length p) p d o m a (le_n _)). Qed.
Print Assumptions C209_keeps.
(** True at the first level: the default, if there is one. *)
Theorem C209_true : forall defaults overrides merged k, distinct_keys (VDict overrides) -> merge_dicts defaults (VDict overrides) = Draw merged ->
  dget k overrides = Some (VBool true) -> dget k merged = dget k defaults /\ dget k defaults <> None.
Proof. exact merge_true. Qed.
Print Assumptions C209_true.
(** Hence the documented {"spine": True} hides the spine, in every plot, ... *)
Theorem C209_spine_hidden : forall nonpar mixture o config p, distinct_keys (VDict config) -> circ_plot nonpar mixture o (Some config) = Draw p ->
  dget "spine" config = Some (VBool true) -> p_spine p = VBool false.
Proof. exact spine_hidden. Qed.
Print Assumptions C209_spine_hidden.
(** ... and some are drawn with it. *)
Theorem C209_refuted : exists x g o config p, circular x g = Ok (o, None) /\ dget "spine" config = Some (VBool true) /\
  circ_plot (fun _ _ _ => 0) None o (Some config) = Draw p /\ p_spine p = VBool false.
Proof. exact spine_refuted. Qed.
Print Assumptions C209_refuted.
Example C209_ex : exists merged, distinct_keys (VDict ex_overrides) /\ merge_dicts default_config (VDict ex_overrides) = Draw merged /\
  look (VDict merged) ["rose"; "bins"]%string = Some (VNum 36) /\ look (VDict merged) ["rose"; "counts"]%string = Some (VBool true) /\
  look (VDict merged) ["rose"; "color"]%string = Some (VStr "gray") /\ look (VDict merged) ["mean"]%string = Some (VBool false).
Proof. exact ex_merge. Qed.

(** ** C210: a built object can be plotted *)
(** Ungrouped data with a median are drawn by default. *)
Theorem C210_single_partial : forall x g o k nonpar mixture, circular x g = Ok (o, k) -> o_grouped o = false -> o_median o <> MNaN ->
  exists p, circ_plot nonpar mixture o None = Draw p.
Proof. exact single_drawn. Qed.
Print Assumptions C210_single_partial.
(** Ungrouped data without one are not. *)
Theorem C210_no_median : forall x g o k nonpar mixture, circular x g = Ok (o, k) -> o_grouped o = false -> o_median o = MNaN ->
  circ_plot nonpar mixture o None = Raise PAttributeError.
Proof. exact single_raises. Qed.
Print Assumptions C210_no_median.
(** No grouped object is. *)
Theorem C210_grouped : forall o nonpar mixture, o_grouped o = true -> exists e, circ_plot nonpar mixture o None = Raise e.
Proof. exact grouped_raises. Qed.
Print Assumptions C210_grouped.
(** Drawing one takes an undocumented key, or no density or no rose diagram, and no interval of the median. *)
Theorem C210_grouped_needs : forall x g o k nonpar mixture config p, circular x g = Ok (o, k) -> o_grouped o = true -> circ_plot nonpar mixture o config = Draw p ->
  exists c, merge_dicts default_config (VDict (match config with Some d => d | None => [] end)) = Draw c /\
    (exists v, (dget "rose" c = Some v \/ dget "density" c = Some v) /\ truthy v = false \/ mixture <> None /\ dget "rlim_max" c = Some v) /\
    (exists v, (look (VDict c) ["median"]%string = Some v \/ look (VDict c) ["median"; "ci"]%string = Some v) /\ truthy v = false).
Proof. exact grouped_needs. Qed.
Print Assumptions C210_grouped_needs.
(** With both switched off each one is drawn, a bar for each group. *)
Theorem C210_grouped_off : forall nonpar mixture o, o_grouped o = true -> exists p, circ_plot nonpar mixture o (Some off_for_groups) = Draw p /\
  p_bars p = bars (o_alpha o) (o_w o) /\ p_width p = 2 * PI / INR (List.length (o_alpha o)) /\ p_mean_arc p = Some (arc (o_mean_ci o)).
Proof. exact grouped_off. Qed.
Print Assumptions C210_grouped_off.
Theorem C210_refuted : exists x g o, circular x g = Ok (o, None) /\ forall nonpar mixture, exists e, circ_plot nonpar mixture o None = Raise e.
Proof. exact plot_refuted. Qed.
Print Assumptions C210_refuted.
Example C210_ex : (exists o, circular ex_ext three_same = Ok (o, None) /\ o_grouped o = false /\ o_median o <> MNaN) /\
  (exists o, circular ex_ext turned = Ok (o, None) /\ o_grouped o = false /\ o_median o = MNaN) /\
  (exists o, circular ex_ext (binned [1; 1] 2 "radian") = Ok (o, None) /\ o_grouped o = true).
Proof. exact ex_built. Qed.

(** ** C211: the rose diagram *)
Theorem C211_rose_partial : forall nonpar mixture o config p k, circ_plot nonpar mixture o config = Draw p -> distinct_keys (VDict (given config)) -> o_grouped o = false -> (1 <= k)%nat ->
  look (VDict (given config)) ["rose"; "bins"]%string = Some (VNum (INR k)) \/ dget "rose" (given config) = None /\ k = 12%nat -> dget "width" (given config) = None -> (exists a, In a (o_alpha o) /\ 0 <= a <= 2 * PI) ->
  List.length (p_bars p) = k /\ p_width p = 2 * PI / INR k /\
  exists top, (1 <= top)%nat /\ (exists i, (i < k)%nat /\ count_if (in_bin k i) (o_alpha o) = top) /\
    (forall i, (i < k)%nat -> (count_if (in_bin k i) (o_alpha o) <= top)%nat /\
       exists h, nth i (p_bars p) (0, 0) = ((INR i + 1 / 2) * (2 * PI / INR k), h) /\ 0 <= h <= 1 /\ h ^ 2 = INR (count_if (in_bin k i) (o_alpha o)) / INR top).
Proof. exact rose_spec. Qed.
Print Assumptions C211_rose_partial.
(** The bins hold the observations given as angles of [0, 2 pi], ... *)
Theorem C211_counted : forall k alpha, (1 <= k)%nat -> Rsum (map (fun i => INR (count_if (in_bin k i) alpha)) (seq 0 k)) = INR (count_if (fun a => Rleb 0 a && Rleb a (2 * PI)) alpha).
Proof. exact bins_total. Qed.
Print Assumptions C211_counted.
(** ... and no others: of 13 observations at -90 degrees and 13 at 0 only the latter are drawn. *)
Theorem C211_refuted : exists x g o p c, circular x g = Ok (o, None) /\ circ_plot (fun _ _ _ => 0) None o (Some twelve_bins) = Draw p /\
  count_if (fun a => Reqb (angmod0 a) (3 * PI / 2)) (o_alpha o) = 13%nat /\ List.length (o_alpha o) = 26%nat /\
  (forall b, In b (p_bars p) -> snd b = 0 \/ b = (c, 1)) /\ c + p_width p < PI.
Proof. exact rose_refuted. Qed.
Print Assumptions C211_refuted.
Example C211_ex : exists o p, circular ex_ext three_same = Ok (o, None) /\ circ_plot (fun _ _ _ => 0) None o (Some twelve_bins) = Draw p /\ distinct_keys (VDict twelve_bins) /\
  look (VDict twelve_bins) ["rose"; "bins"]%string = Some (VNum (INR 12)) /\ o_grouped o = false /\ exists a, In a (o_alpha o) /\ 0 <= a <= 2 * PI.
Proof. exact ex_rose. Qed.

(** ** C212: the markers *)
(** One marker for each observation, no two in the same place: those of the observations read as the
    angle v are stacked at v, 0.05 apart, v being within 0.0005 of each of them. *)
Theorem C212_markers : forall nonpar mixture o config p, circ_plot nonpar mixture o config = Draw p -> distinct_keys (VDict (given config)) -> o_grouped o = false ->
  exists lab r0 out, (forall x, Rabs (lab x - x) <= 1 / 2000) /\ (forall x y, x <= y -> lab x <= lab y) /\
  (forall r, look (VDict (given config)) ["scatter"; "r_start"]%string = Some (VNum r) -> r0 = r) /\ (dget "scatter" (given config) = None -> r0 = 1) /\
  (dget "outward" (given config) = Some (VBool false) -> out = false) /\ (dget "outward" (given config) = None \/ dget "outward" (given config) = Some (VBool true) -> out = true) /\
  List.length (p_scatter p) = List.length (o_alpha o) /\ NoDup (p_scatter p) /\
  forall v r, In (v, r) (p_scatter p) <-> exists j, (j < count_if (fun a => Reqb (lab a) v) (o_alpha o))%nat /\ r = r0 + (if (out : bool) then 1 else - 1) * (INR (S j) / 20).
Proof. exact plot_scatter. Qed.
Print Assumptions C212_markers.
Example C212_ex : exists o p, circular ex_ext three_same = Ok (o, None) /\ circ_plot (fun _ _ _ => 0) None o (Some twelve_bins) = Draw p /\ distinct_keys (VDict twelve_bins) /\ o_grouped o = false.
Proof. destruct ex_rose as (o & p & A & B & C & _ & D & _). exists o, p. auto. Qed.

(** ** C213: the arcs of the confidence intervals *)
(** An interval of two distinct bounds is drawn from its lower bound counterclockwise to its upper. *)
Theorem C213_mean_partial : forall x g o k nonpar mixture config p lb ub, circular x g = Ok (o, k) -> circ_plot nonpar mixture o config = Draw p -> dget "mean" (given config) = None -> o_mean_ci o = Some (lb, ub) -> lb <> ub ->
  exists arc width, p_mean_arc p = Some arc /\ 0 < width < 2 * PI /\ same_dir (lb + width) ub /\ List.length arc = 50%nat /\ forall i, (i < 50)%nat -> nth i arc 0 = lb + width * (INR i / 49).
Proof. exact mean_arc. Qed.
Print Assumptions C213_mean_partial.
Theorem C213_median_partial : forall x g o k nonpar mixture config p lb ub, circular x g = Ok (o, k) -> circ_plot nonpar mixture o config = Draw p -> dget "median" (given config) = None -> o_median_ci o = Some (Some (lb, ub)) -> lb <> ub ->
  exists arc width, p_median_arc p = Some arc /\ 0 < width < 2 * PI /\ same_dir (lb + width) ub /\ List.length arc = 50%nat /\ forall i, (i < 50)%nat -> nth i arc 0 = lb + width * (INR i / 49).
Proof. exact median_arc. Qed.
Print Assumptions C213_median_partial.
(** An interval that is one point is drawn as the whole circle. *)
Theorem C213_refuted : exists x g o p m, circular x g = Ok (o, None) /\ o_median o = MOne m /\ o_median_ci o = Some (Some (m, m)) /\ circ_plot (fun _ _ _ => 0) None o None = Draw p /\
  exists arc, p_median_arc p = Some arc /\ List.length arc = 50%nat /\ forall i, (i < 50)%nat -> nth i arc 0 = m + 2 * PI * (INR i / 49).
Proof. exact arc_refuted. Qed.
Print Assumptions C213_refuted.
Example C213_ex : (exists o lb ub p, circular ex_ext two_ways_args = Ok (o, None) /\ o_mean_ci o = Some (lb, ub) /\ lb <> ub /\ circ_plot (fun _ _ _ => 0) None o (Some twelve_bins) = Draw p) /\
  (exists o lb ub p, circular ex_ext spread_args = Ok (o, None) /\ o_median_ci o = Some (Some (lb, ub)) /\ lb <> ub /\ circ_plot (fun _ _ _ => 0) None o None = Draw p).
Proof. split; [exact ex_mean_arc|exact ex_median_arc]. Qed.

(** ** C215: the density curve *)
(** The curve asked for is drawn: none, the kernel estimate (with the bandwidth given, if any), the fitted
    mixture, or one's own ordinates, at one's own angles or evenly spaced ones. *)
Theorem C215_density : forall nonpar mixture o config p, circ_plot nonpar mixture o config = Draw p -> distinct_keys (VDict (given config)) -> o_grouped o = false ->
  let D k := look (VDict (given config)) ["density"%string; k] in
  (dget "density" (given config) = Some (VBool false) -> p_density p = None) /\
  (dget "density" (given config) = None \/ dget "density" (given config) = Some (VBool true) \/
     (exists sub, dget "density" (given config) = Some (VDict sub)) /\ D "f"%string = None /\ D "h0"%string = None /\ (D "method"%string = None \/ D "method"%string = Some (VStr "nonparametric")) ->
     exists curve, p_density p = Some curve /\ drawn 100 (nonpar None o) curve) /\
  (forall h, D "h0"%string = Some (VNum h) -> D "f"%string = None -> D "method"%string = None \/ D "method"%string = Some (VStr "nonparametric") ->
     exists curve, p_density p = Some curve /\ drawn 100 (nonpar (Some h) o) curve) /\
  (D "method"%string = Some (VStr "MovM") -> D "f"%string = None -> exists q curve, mixture = Some q /\ p_density p = Some curve /\ drawn 100 q curve) /\
  (forall f, D "f"%string = Some (VList f) -> D "x"%string = None -> exists curve, p_density p = Some curve /\ List.length curve = List.length f /\
     forall i, (i < List.length f)%nat -> nth i curve (0, 0) = (2 * PI * (INR i / INR (List.length f - 1)), nth i f 0)) /\
  (forall f x, D "f"%string = Some (VList f) -> D "x"%string = Some (VList x) -> List.length x = List.length f /\ p_density p = Some (combine x f)).
Proof. exact plot_density. Qed.
Print Assumptions C215_density.
Example C215_ex : exists o p, circular ex_ext three_same = Ok (o, None) /\ circ_plot (fun _ _ _ => 0) None o (Some own_density) = Draw p /\ distinct_keys (VDict own_density) /\ o_grouped o = false /\
  look (VDict own_density) ["density"; "f"]%string = Some (VList [1; 2; 3]) /\ look (VDict own_density) ["density"; "x"]%string = None.
Proof. exact ex_density. Qed.
