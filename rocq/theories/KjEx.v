(** Examples for the Kato-Jones properties. *)
From Verif Require Import Prelude EmModel NpModel NpProofs CircleSpec UtilsModel UtilsProofs DescModel DescProofs IntSpec IntProofs DistModel DistSpec DistProofs
  Dist2Proofs Dist4Proofs KjModel KjSpec KjProofs Kj2Proofs Kj4Proofs Kj5Proofs Kj6Proofs Kj7Proofs.

Definition ex_kj : kj := {| kj_mu := PI / 3; kj_gamma := 1 / 3; kj_rho := 1 / 2; kj_lam := PI / 2 |}.
Lemma ex_kj_doc : kj_documented ex_kj /\ kj_rho ex_kj <= 99 / 100 /\ / 10 ^ 12 < kj_rho ex_kj.
Proof.
  unfold kj_documented, ex_kj; cbn [kj_mu kj_gamma kj_rho kj_lam]. pose proof PI_RGT_0. rewrite cos_PI2, sin_PI2. repeat split; try lra.
Qed.
Lemma ex_kj_bad : (1 - 3 / 4) ^ 2 < (1 / 3 * cos PI - 3 / 4) ^ 2 + (1 / 3 * sin PI) ^ 2.
Proof. rewrite cos_PI, sin_PI. lra. Qed.
Lemma ex_kj_conv : kj_to_alpha_beta (1 / 3) (1 / 2) (PI / 2) true = Ok (0, 1 / 6) /\
  kj_to_rho_lam (1 / 3) 0 (1 / 6) true = Ok (1 / 2, PI / 2) /\ kj_to_rho_lam (1 / 3) 0 1 true = Err ValueError.
Proof.
  pose proof PI_RGT_0.
  destruct (kj_there_and_back (1 / 3) (1 / 2) (PI / 2) true) as (a & b & A & B); try lra;
    [rewrite cos_PI2, sin_PI2; lra|].
  assert (E : kj_to_alpha_beta (1 / 3) (1 / 2) (PI / 2) true = Ok (0, 1 / 6)).
  { unfold kj_to_alpha_beta, kj_constraint. rewrite cos_PI2, sin_PI2.
    destruct (Rleb_spec 0 (1 / 3)); [|lra]. destruct (Rltb_spec (1 / 3) 1); [|lra].
    destruct (Rleb_spec 0 (1 / 2)); [|lra]. destruct (Rltb_spec (1 / 2) 1); [|lra]. cbn [andb negb].
    match goal with |- context [Rltb ?u ?v] => destruct (Rltb_spec u v); [lra|] end. f_equal. f_equal; field. }
  split; [exact E|]. rewrite E in A. injection A as <- <-. split; [exact B|].
  unfold kj_to_rho_lam. destruct (Rleb_spec 0 (1 / 3)); [|lra]. destruct (Rltb_spec (1 / 3) 1); [|lra]. cbn [andb negb]. cbv zeta.
  match goal with |- context [Rltb ?u ?v] => destruct (Rltb_spec u v); [reflexivity|lra] end.
Qed.
Lemma ex_kj_project : kj_project (1 / 2) (1 / 4) 1 = (1 / 4, 1 / 4).
Proof.
  unfold kj_project. replace (1 / 2 * (1 - 1 / 2)) with (1 / 4) by field. destruct (Rleb_spec (1 / 4) 0); [lra|].
  assert (E : hypot (1 / 4 - 1 / 2 * (1 / 2)) 1 = 1).
  { unfold hypot. replace ((1 / 4 - 1 / 2 * (1 / 2)) * (1 / 4 - 1 / 2 * (1 / 2)) + 1 * 1) with 1 by field. apply sqrt_1. }
  rewrite E. destruct (Rleb_spec 1 (1 / 4)); [lra|]. destruct (Reqb_spec 1 0); [lra|]. f_equal; field.
Qed.
(** Angles 0, 0, pi with weights 2, 1, 1: first moment 1/2, second moment 1, cut back to 1/2. *)
Definition ex_kj_data : list (R * R) := [(0, 2); (0, 1); (PI, 1)].
Lemma ex_kj_moments : sample_moment ex_kj_data 1 0 = (1 / 2, 0) /\ sample_moment ex_kj_data 2 0 = (1, 0).
Proof.
  unfold sample_moment, ex_kj_data, Rsum. cbn [map fst snd fold_right].
  replace (1 * (0 - 0)) with 0 by ring. replace (1 * (PI - 0)) with PI by ring.
  replace (2 * (0 - 0)) with 0 by ring. replace (2 * (PI - 0)) with (2 * PI) by ring.
  rewrite cos_0, sin_0, cos_PI, sin_PI, cos_2PI, sin_2PI. split; f_equal; field.
Qed.
Lemma ex_kj_fit : exists rho, kj_fit_moments ex_kj_data = Ok (Fin 0, 1 / 2, Fin rho, Fin 0) /\ rho = 1 - / 10 ^ 9.
Proof.
  pose proof PI_RGT_0. destruct ex_kj_moments as [M1 M2]. exists (1 - / 10 ^ 9). split; [|reflexivity].
  unfold kj_fit_moments, ex_kj_data. cbv zeta. cbn [existsb snd]. destruct (Rltb_spec 2 0); [lra|]. destruct (Rltb_spec 1 0); [lra|]. cbn [orb].
  destruct (Rleb_spec (wtotal [(0, 2); (0, 1); (PI, 1)]) 0) as [B|_]; [unfold wtotal, Rsum in B; simpl in B; lra|].
  cbn [map fst snd]. rewrite !wrap_in by lra. fold ex_kj_data.
  assert (C1 : compute_C ex_kj_data 1 0 = 1 / 2) by (change (compute_C ex_kj_data 1 0) with (fst (sample_moment ex_kj_data 1 0)); rewrite M1; reflexivity).
  assert (S1 : compute_S ex_kj_data 1 0 = 0) by (change (compute_S ex_kj_data 1 0) with (snd (sample_moment ex_kj_data 1 0)); rewrite M1; reflexivity).
  assert (Er : circ_r_s ex_kj_data = 1 / 2).
  { unfold circ_r_s. rewrite C1, S1. replace ((1 / 2) ^ 2 + 0 ^ 2) with (1 / 2 * (1 / 2)) by field. apply sqrt_square. lra. }
  assert (A0 : forall r, 0 < r -> mod2pi (arctan2 0 r) = 0).
  { intros r Hr. pose proof (arctan2_mod r 0 Hr ltac:(lra)) as E. rewrite sin_0, cos_0, Rmult_0_r, Rmult_1_r in E. exact E. }
  assert (Em : mean_dir ex_kj_data = 0) by (unfold mean_dir; rewrite C1, S1, angmod0_eq; apply A0; lra).
  destruct (circ_mean_and_r_s_cases ex_kj_data) as [[Hr Ec]|[Hr Ec]]; [rewrite Er in Hr; lra|]. rewrite Ec, Em, Er.
  rewrite (clip_in (1 / 2)) by lra.
  assert (A2 : Rsum (map (fun p => snd p * cos (2 * angmod0 (fst p - 0))) ex_kj_data) / wtotal ex_kj_data = 1).
  { destruct (angmod_moment ex_kj_data 0) as [-> _]. change (fst (sample_moment ex_kj_data 2 0) = 1). rewrite M2. reflexivity. }
  assert (B2 : Rsum (map (fun p => snd p * sin (2 * angmod0 (fst p - 0))) ex_kj_data) / wtotal ex_kj_data = 0).
  { destruct (angmod_moment ex_kj_data 0) as [_ ->]. change (snd (sample_moment ex_kj_data 2 0) = 0). rewrite M2. reflexivity. }
  cbn [ex_kj_data map fst snd] in A2, B2. rewrite A2, B2.
  assert (Ep : kj_project (1 / 2) 1 0 = (1 / 2, 0)).
  { unfold kj_project. replace (1 / 2 * (1 - 1 / 2)) with (1 / 4) by field. destruct (Rleb_spec (1 / 4) 0); [lra|].
    assert (E : hypot (1 - 1 / 2 * (1 / 2)) 0 = 3 / 4).
    { unfold hypot. replace ((1 - 1 / 2 * (1 / 2)) * (1 - 1 / 2 * (1 / 2)) + 0 * 0) with (3 / 4 * (3 / 4)) by field. apply sqrt_square. lra. }
    rewrite E. destruct (Rleb_spec (3 / 4) (1 / 4)); [lra|]. destruct (Reqb_spec (3 / 4) 0); [lra|]. f_equal; field. }
  rewrite Ep. destruct (Rltb_spec (1 / 2) (/ 10 ^ 12)); [lra|].
  assert (Eh : hypot (1 / 2) 0 = 1 / 2).
  { unfold hypot. replace (1 / 2 * (1 / 2) + 0 * 0) with (1 / 2 * (1 / 2)) by field. apply sqrt_square. lra. }
  rewrite Eh, Rmax_left by lra. replace (1 / 2 / (1 / 2)) with 1 by field.
  assert (Ecl : clip 1 0 (1 - / 10 ^ 9) = 1 - / 10 ^ 9) by (unfold clip; rewrite Rmax_left by lra; apply Rmin_right; lra).
  rewrite Ecl. destruct (Rltb_spec (1 - / 10 ^ 9) (/ 10 ^ 12)); [lra|]. rewrite A0 by lra. unfold wrap_direction. rewrite wrap_in by lra. reflexivity.
Qed.
