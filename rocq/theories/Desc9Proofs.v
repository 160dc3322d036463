From Verif Require Import Prelude CircleSpec NpModel NpProofs UtilsModel UtilsProofs DescModel DescSpec DescProofs DescApi DescApi2 Desc2Model Desc5Proofs.

Lemma spread_bins r b : 0 < r -> 0 < b < 2 * PI -> r * (b / 2) <= sin (b / 2) ->
  let v := 1 - r * (b / 2) / sin (b / 2) in
  exists s t, circ_var None None (Some r) (Some b) = Ok v /\ angular_var None None (Some r) (Some b) = Ok (2 * v) /\
    angular_std None None (Some r) (Some b) = Ok (Fin s) /\ circ_std None None (Some r) (Some b) = Ok (Fin t) /\
    0 <= v < 1 /\ 0 <= s /\ s * s = 2 * v /\ 0 <= t /\ 1 - v = exp (- (t * t) / 2).
Proof.
  intros Hr Hb Hle v. assert (S : 0 < sin (b / 2)) by (apply sin_gt_0; lra).
  assert (V : 0 <= v < 1).
  { unfold v. assert (P : 0 < r * (b / 2) / sin (b / 2)) by (apply Rdiv_lt_0_compat; nra).
    assert (r * (b / 2) / sin (b / 2) <= 1); [|lra].
    apply Rmult_le_reg_r with (sin (b / 2)); auto. unfold Rdiv. rewrite Rmult_assoc, Rinv_l by lra. lra. }
  assert (EV : circ_var None None (Some r) (Some b) = Ok v).
  { unfold circ_var. cbn [bind]. destruct (Reqb_spec b 0); [lra|]. unfold v. do 2 f_equal. field. lra. }
  assert (L : ln (1 - v) <= 0) by (rewrite <- ln_1; destruct (Req_dec v 0) as [->|]; [rewrite Rminus_0_r; lra|left; apply ln_increasing; lra]).
  exists (sqrt (2 * v)), (sqrt (- 2 * ln (1 - v))).
  unfold angular_std, angular_var, circ_std. rewrite EV. cbn [bind]. unfold np_sqrt.
  destruct (Rltb_spec (2 * v) 0); [lra|]. destruct (Rltb_spec (1 - v) 0); [lra|]. destruct (Reqb_spec (1 - v) 0); [lra|].
  destruct (Rltb_spec (- 2 * ln (1 - v)) 0); [lra|]. repeat split; auto; try lra; try apply sqrt_pos.
  - apply sqrt_sqrt. lra.
  - rewrite sqrt_sqrt by lra. replace (- (- 2 * ln (1 - v)) / 2) with (ln (1 - v)) by field. symmetry. apply exp_ln. lra.
Qed.
Lemma ex_bins : 0 < 1/2 /\ 0 < PI < 2 * PI /\ 1/2 * (PI / 2) <= sin (PI / 2).
Proof. pose proof PI_RGT_0. pose proof PI_4. rewrite sin_PI2. lra. Qed.
Lemma metric_names :
  metric_of_name "center" = Ok Center /\ metric_of_name "geodesic" = Ok Geodesic /\
  metric_of_name "angularseparation" = Ok AngSep /\ metric_of_name "chord" = Ok Chord /\
  forall s, ~ In s ["center"; "geodesic"; "angularseparation"; "chord"]%string -> metric_of_name s = Err ValueError.
Proof.
  repeat split. intros s H. unfold metric_of_name.
  repeat match goal with |- context [String.eqb s ?x] => destruct (String.eqb_spec s x) as [->|_]; [exfalso; apply H; simpl; tauto|] end.
  reflexivity.
Qed.
(** A1inv and circ_kappa use the same three pieces below r = 1. *)
Lemma A1inv_kappa r : 0 <= r < 1 -> circ_kappa r None = Ok (A1inv r).
Proof.
  intros H. rewrite circ_kappa_none. f_equal. unfold kappa0, A1inv.
  destruct (Rleb_spec 0 r); [|lra]. cbn [andb]. destruct (Rltb_spec r (53/100)); auto.
  destruct (Rltb_spec r (85/100)); auto. pose proof (nom_pos r ltac:(lra)).
  destruct (Reqb_spec (r ^ 3 - 4 * r ^ 2 + 3 * r) 0); [lra|reflexivity].
Qed.
Lemma A1inv_mono r r' : 0 <= r <= r' -> (r' < 85/100 \/ (85/100 <= r /\ r' < 1)) -> 0 <= A1inv r <= A1inv r'.
Proof.
  intros H C. destruct (circ_kappa_monotone r r' H C) as (k & k' & E & E' & B).
  rewrite A1inv_kappa in E, E' by (destruct C; lra). injection E as <-. injection E' as <-. exact B.
Qed.
Lemma A1inv_drop : A1inv 0 = 0 /\ exists r r', 0 <= r /\ r < r' /\ r' < 1 /\ A1inv r' < A1inv r.
Proof.
  split.
  - unfold A1inv. destruct (Rleb_spec 0 0); [|lra]. destruct (Rltb_spec 0 (53/100)); [|lra]. cbn [andb]. field.
  - destruct (proj1 kappa_not_monotone) as (r & r' & k & k' & H0 & H1 & H2 & E & E' & L). exists r, r'.
    rewrite A1inv_kappa in E, E' by lra. injection E as <-. injection E' as <-. auto.
Qed.
(** Outside the unit interval. *)
Lemma A1inv_negative r : r < 0 -> A1inv r = - (4/10) + (139/100) * r + (43/100) / (1 - r).
Proof.
  intros H. unfold A1inv. destruct (Rleb_spec 0 r); [lra|]. cbn [andb]. destruct (Rltb_spec r (85/100)); [reflexivity|lra].
Qed.
