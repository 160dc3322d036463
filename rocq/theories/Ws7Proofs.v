(** The three closed forms of the stable generator. *)
From Verif Require Import Prelude NpModel NpProofs DistModel DistProofs WsModel WsProofs Ws2Proofs Ws6Proofs.

Lemma ws_draw_gauss d b g V W : - (PI / 2) < V < PI / 2 -> 0 < W -> ws_linear d 2 b g V W = d + 2 * g * sqrt W * sin V.
Proof.
  intros HV HW. unfold ws_linear, ws_atol. cbv zeta. rewrite (proj2 (Rltb_true _ _)) by (rewrite Rabs_right; lra).
  replace (1 / 2 * PI * 2) with PI by field.
  assert (T : tan PI = 0) by (unfold tan; rewrite sin_PI; unfold Rdiv; ring). rewrite T.
  rewrite !Rmult_0_r, atan_0. replace (2 * (V + 0 / 2)) with (2 * V) by field. replace (V - 2 * V) with (- V) by ring. rewrite cos_neg.
  assert (C : 0 < cos V) by (apply cos_gt_0; lra).
  replace (1 + 0 ^ 2) with 1 by ring.
  assert (P1 : Rpower 1 (1 / (2 * 2)) = 1) by (unfold Rpower; rewrite ln_1, Rmult_0_r, exp_0; reflexivity). rewrite P1.
  replace ((1 - 2) / 2) with (- / 2) by field. rewrite Rpower_Ropp.
  replace (1 / 2) with (/ 2) by field. rewrite !Rpower_sqrt; try (exact C); try (apply Rdiv_lt_0_compat; lra).
  rewrite sqrt_div by lra. rewrite sin_2a.
  pose proof (sqrt_lt_R0 _ C) as A. pose proof (sqrt_lt_R0 _ HW) as B. pose proof (sqrt_sqrt (cos V) ltac:(lra)) as E.
  rewrite <- E at 1. field. lra.
Qed.
Lemma ws_draw_cauchy d g V W : - (PI / 2) < V < PI / 2 -> 0 < W -> ws_linear d 1 0 g V W = d + g * tan V.
Proof.
  intros HV HW. unfold ws_linear, ws_atol. cbv zeta. rewrite (proj2 (Rltb_false _ _)).
  - pose proof PI_pos. field. lra.
  - replace (1 - 1) with 0 by ring. rewrite Rabs_R0. lra.
Qed.
Lemma ws_draw_half d b g V W : - 1 < b < 1 -> - (PI / 2) < V < PI / 2 -> 0 < W ->
  ws_linear d (1 / 2) b g V W = d + g * ((1 + b ^ 2) / 2 * sin V + b) / (W * cos V ^ 2).
Proof.
  intros Hb HV HW. unfold ws_linear, ws_atol. cbv zeta. rewrite (proj2 (Rltb_true _ _)) by (replace (1 / 2 - 1) with (- (1 / 2)) by field; rewrite Rabs_Ropp, Rabs_right; lra).
  replace (1 / 2 * PI * (1 / 2)) with (PI / 4) by field. rewrite tan_PI4, Rmult_1_r.
  set (t := atan b). assert (Ht : - (PI / 4) < t < PI / 4).
  { unfold t. pose proof atan_1 as A1. split.
    - rewrite <- A1, <- atan_opp. apply atan_increasing. lra.
    - rewrite <- A1. apply atan_increasing. lra. }
  replace (1 / 2 * (V + t / (1 / 2))) with (V / 2 + t) by field. replace (V - (V / 2 + t)) with (V / 2 - t) by field.
  replace (1 / (2 * (1 / 2))) with 1 by field. replace (1 / (1 / 2)) with 2 by field. replace ((1 - 1 / 2) / (1 / 2)) with 1 by field.
  pose proof PI_pos.
  assert (C : 0 < cos V) by (apply cos_gt_0; lra). assert (C2 : 0 < cos (V / 2 - t)) by (apply cos_gt_0; lra).
  rewrite Rpower_1 by nra. rewrite Rpower_1 by (apply Rdiv_lt_0_compat; lra).
  replace (Rpower (cos V) 2) with (cos V ^ 2) by (rewrite <- Rpower_pow by exact C; f_equal; cbn; ring).
  assert (K : (1 + b ^ 2) * (sin (V / 2 + t) * cos (V / 2 - t)) = (1 + b ^ 2) / 2 * sin V + b).
  { assert (Ec : 0 < cos t) by (apply cos_gt_0; lra). assert (Et : sin t = b * cos t).
    { assert (Tb : tan t = b) by (unfold t; apply tan_atan). rewrite <- Tb at 1. unfold tan. field. lra. }
    pose proof (sin2_cos2 t) as E. unfold Rsqr in E. rewrite Et in E.
    assert (E' : (1 + b ^ 2) * (cos t * cos t) = 1) by nra.
    rewrite sin_plus, cos_minus, Et.
    assert (S2 : sin V = 2 * sin (V / 2) * cos (V / 2)) by (rewrite <- sin_2a; f_equal; field).
    pose proof (sin2_cos2 (V / 2)) as E2. unfold Rsqr in E2. rewrite S2.
    replace ((1 + b ^ 2) * ((sin (V / 2) * cos t + cos (V / 2) * (b * cos t)) * (cos (V / 2) * cos t + sin (V / 2) * (b * cos t))))
      with ((1 + b ^ 2) * (cos t * cos t) * ((sin (V / 2) + cos (V / 2) * b) * (cos (V / 2) + sin (V / 2) * b))) by ring.
    rewrite E'. transitivity ((1 + b ^ 2) * (sin (V / 2) * cos (V / 2)) + b * (sin (V / 2) * sin (V / 2) + cos (V / 2) * cos (V / 2))); [ring|].
    rewrite E2. field. }
  rewrite <- K. field. split; lra.
Qed.
