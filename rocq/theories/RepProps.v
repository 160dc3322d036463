(** C224, C225: the printed summary of a Circular object. *)
From Verif Require Import Prelude NpModel UtilsModel CircleSpec DescModel DescSpec DescApi Desc2Model HypModel HypProofs BaseModel BaseSpec BaseProofs Base4Proofs Base7Proofs BaseEx LevModel RepModel RepSpec RepProofs.
Open Scope string_scope.
Open Scope R_scope.

(** ** C224: what summary() prints *)
(** Missing: that the summary of every object is printed (C224_raises_refuted). *)
Theorem C224_lines_partial : forall x g v w s, cycle_of (a_unit g) (a_cycle g) v -> 0 < v -> a_bins g = None -> a_rotate g = None ->
  (a_w g = Some w \/ a_w g = None /\ w = map (fun _ => 1) (a_data g)) -> Forall (fun y => 0 <= y) w -> summary x g = Ok s ->
  s_unit s = a_unit g /\ (s_grouped s = true <-> a_w g <> None) /\ IZR (s_n s) <= Rsum w < IZR (s_n s) + 1 /\ reads_mean v (a_data g) w (s_mean s) /\
  s_pval s = rayleigh_p (IZR (s_n s)) (s_r s) /\ s_mark s = significance_code (s_pval s) /\
  (s_mean_ci s <> None -> s_pval s < 5/100 /\ s_ci_method s <> None) /\ (s_median_ci s <> None -> a_w g = None /\ s_median s <> NaN).
Proof. exact summary_reads. Qed.
Print Assumptions C224_lines_partial.
(** The other lines: r, skewness and kurtosis are those of the readings as angles (NaN when all coincide), the
    median's interval is what circ_median_ci returns for the printed median. *)
Theorem C224_values : forall x g v w s, cycle_of (a_unit g) (a_cycle g) v -> 0 < v -> a_bins g = None -> a_rotate g = None ->
  (a_w g = Some w \/ a_w g = None /\ w = map (fun _ => 1) (a_data g)) -> summary x g = Ok s ->
  let alpha := map (angle_of v) (a_data g) in
  s_clusters s = None /\ s_r s = circ_r alpha (Some w) /\
  (s_r s < 1 -> s_skewness s = Fin (circ_skewness (smp alpha (Some w))) /\ s_kurtosis s = Fin (circ_kurtosis (smp alpha (Some w)))) /\
  (s_r s = 1 -> s_skewness s = NaN /\ s_kurtosis s = NaN) /\
  (forall lv lo up, s_median_ci s = Some (lv, lo, up) -> exists m, s_median s = Fin m /\
    median_ci_full alpha (angle_of v m) (x_z x) (95/100) = Ok (Some (angle_of v lo, angle_of v up), lv)).
Proof. exact summary_rest. Qed.
Print Assumptions C224_values.
(** The same readings in another unit: the printed angles are converted, the rest is the same. *)
Theorem C224_units : forall x g u' c' v v', cycle_of (a_unit g) (a_cycle g) v -> cycle_of u' c' v' -> v <> 0 -> v' <> 0 ->
  rescaled_outcome (v' / v) (summary x g) (summary x (with_unit g (map (fun d => d * v' / v) (a_data g)) u' c')).
Proof. exact summary_units. Qed.
Print Assumptions C224_units.
(** An object whose summary cannot be printed holds several medians of grouped data. *)
Theorem C224_raises : forall x g o k e, circular x g = Ok (o, k) -> summary x g = Err e ->
  e = TypeError /\ km_average (a_median g) = false /\ o_grouped o = true /\ exists l, o_median o = MMany l.
Proof. exact summary_total. Qed.
Print Assumptions C224_raises.
Theorem C224_raises_refuted : forall x, exists g o k, circular x g = Ok (o, k) /\ summary x g = Err TypeError.
Proof. intros x. destruct (many_fails x) as (o & H). exists three_equal, o, None. exact H. Qed.
Print Assumptions C224_raises_refuted.
Example C224_example : forall x, exists s s', summary x (plain (repeat 90 4) "degree") = Ok s /\
  summary x (with_unit (plain (repeat 90 4) "degree") (map (fun d => d * 24 / 360) (repeat 90 4)) "hour" None) = Ok s' /\
  rescaled (24 / 360) s s' /\ reads_mean 360 (repeat 90 4) (repeat 1 4) (s_mean s).
Proof.
  intros x. destruct (turned_pair x) as (o & _ & E & _). set (g := plain (repeat 90 4) "degree") in *.
  destruct (summary x g) as [s|e] eqn:S; [|destruct (C224_raises x g o None e E S) as (_ & A & _); discriminate].
  pose proof (C224_units x g "hour" None 360 24 (or_introl (conj eq_refl eq_refl)) (or_intror (or_intror (conj eq_refl eq_refl))) ltac:(lra) ltac:(lra)) as U.
  change (a_data g) with (repeat 90 4) in U. rewrite S in U. destruct (summary x (with_unit _ _ _ _)) as [s'|e']; [|contradiction].
  exists s, s'. split; [reflexivity|]. split; [reflexivity|]. split; [exact U|].
  apply (C224_lines_partial x g 360 (repeat 1 4) s); auto; [left; split; reflexivity|lra|repeat constructor; lra].
Qed.
Example C224_values_example : forall x, exists s, summary x (plain (repeat 90 4) "degree") = Ok s /\ s_r s = circ_r (map (angle_of 360) (repeat 90 4)) (Some (repeat 1 4)).
Proof.
  intros x. destruct (C224_example x) as (s & _ & E & _). exists s. split; [exact E|].
  apply (C224_values x (plain (repeat 90 4) "degree") 360 (repeat 1 4) s); auto; [left; split; reflexivity|lra].
Qed.
Example C224_raises_example : forall x, exists g o k e, circular x g = Ok (o, k) /\ summary x g = Err e.
Proof. intros x. destruct (C224_raises_refuted x) as (g & o & k & H). exists g, o, k, TypeError. exact H. Qed.

(** ** C225: the method named for the mean's interval *)
(** Full statement: a method is named exactly when an interval is printed.  Proved for the default
    kwargs_mean_ci; false otherwise. *)
Theorem C225_default_partial : forall x g w s, a_mean_ci g = None -> 0 < x_z x <= 2 -> a_bins g = None ->
  (a_w g = Some w \/ a_w g = None /\ w = map (fun _ => 1) (a_data g)) -> Forall (fun y => 0 <= y) w -> summary x g = Ok s -> s_mean s <> NaN ->
  (s_ci_method s <> None <-> s_mean_ci s <> None).
Proof. exact default_method. Qed.
Print Assumptions C225_default_partial.
Theorem C225_refuted : forall x, exists g s, summary x g = Ok s /\ s_ci_method s = Some "bootstrap" /\ s_mean_ci s = None.
Proof. exact method_alone. Qed.
Print Assumptions C225_refuted.
Example C225_example : exists s, summary ex_ext two_ways_args = Ok s /\ s_mean s <> NaN /\ s_ci_method s = Some "dispersion" /\ s_mean_ci s <> None.
Proof.
  destruct (two_ways_ok ex_ext ltac:(cbn; lra)) as (o & m & E & N & P & M & W & L).
  destruct (large_sample ex_ext two_ways_args o None m eq_refl ltac:(cbn; lra) W L E N P M) as (lb & ub & A & _ & B & _).
  destruct (summary ex_ext two_ways_args) as [s|e] eqn:S.
  - exists s. split; [reflexivity|]. destruct (summary_inv _ _ s S) as (o' & k' & E' & R). assert (o' = o) by congruence. subst o'.
    unfold repr in R. destruct (o_median o); cbn [bind] in R; try discriminate; injection R as <-; cbn; rewrite A, B, M; repeat split; discriminate.
  - destruct (C224_raises _ _ o None e E S) as (_ & _ & G & l & Q).
    exfalso. destruct (circular_inv _ _ _ _ E) as (p & a0 & _ & _ & I3 & _ & _ & _ & I7 & _). cbn in I3. injection I3 as <-. rewrite I7 in G. discriminate.
Qed.
