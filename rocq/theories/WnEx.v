(** Concrete instances for the wrapped normal theorems. *)
From Verif Require Import Prelude NpModel NpProofs UtilsModel UtilsProofs DescModel DescProofs CircleSpec IntSpec IntProofs DistModel DistSpec DistProofs Dist2Proofs Dist4Proofs Dist5Proofs
  Dist6Proofs Dist7Proofs Dist8Proofs KjProofs Kj2Proofs Kj6Proofs Kj7Proofs Von2Proofs Von3Proofs Von4Proofs WnModel WnSpec WnProofs FourierProofs GaussProofs Wn2Proofs Wn3Proofs Wn4Proofs Wn5Proofs Wn6Proofs Wn7Proofs.

Lemma ex_wn : wn_ok (PI / 3) (9 / 10) = true.
Proof. pose proof PI_RGT_0. apply wn_ok_intro; lra. Qed.
Lemma ex_wn_int : exists v, integral (wn_pdf (PI / 3) (9 / 10)) 0 1 v.
Proof. apply continuous_integral; [lra|intros; apply wn_cont]. Qed.
Lemma ex_wn_window : isclose 1 (2 * PI) = false.
Proof.
  pose proof PI_gt3. destruct (isclose 1 (2 * PI)) eqn:E; [|reflexivity]. exfalso. apply (close_2pi_spec 1) in E; lra.
Qed.
Lemma ex_wn_f : exists f, forall x, public_pdf (wn_ok (PI / 3) (9 / 10)) (wn_pdf (PI / 3) (9 / 10)) x = Fin (f x).
Proof. destruct (wn_density _ _ ex_wn ltac:(lra)) as (f & E & _). exists f. exact E. Qed.
Lemma ex_wn_fit : exists mu rho, wn_fit_moments [(0, 1); (PI / 2, 3)] = Ok (mu, rho).
Proof.
  unfold wn_fit_moments. cbn [existsb fst snd]. rewrite !(proj2 (Rltb_false _ _)) by lra. cbn [orb].
  assert (W : wtotal [(0, 1); (PI / 2, 3)] = 4) by (unfold wtotal; cbn; ring). rewrite W, (proj2 (Rleb_false 4 0)) by lra. cbv zeta.
  destruct (circ_mean_and_r_s _) as [m r]. eexists. eexists. reflexivity.
Qed.
Lemma ex_wn_fit_len : let s := [(0, 1); (PI / 2, 3)] in
  let C := Rsum (map (fun p => snd p * cos (fst p)) s) / Rsum (map snd s) in
  let S := Rsum (map (fun p => snd p * sin (fst p)) s) / Rsum (map snd s) in / 10 ^ 9 <= sqrt (C ^ 2 + S ^ 2) <= 1 - / 10 ^ 9.
Proof.
  cbn [map fst snd]. unfold Rsum. cbn [fold_right]. rewrite cos_0, sin_0, cos_PI2, sin_PI2.
  replace (((1 * 1 + (3 * 0 + 0)) / (1 + (3 + 0))) ^ 2 + ((1 * 0 + (3 * 1 + 0)) / (1 + (3 + 0))) ^ 2) with (5 / 8) by field.
  split.
  - apply Rle_trans with (1 / 2); [lra|]. apply Rsqr_incr_0_var; [|apply sqrt_pos]. rewrite Rsqr_sqrt by lra. unfold Rsqr. lra.
  - apply Rle_trans with (9 / 10); [|lra]. apply Rsqr_incr_0_var; [|lra]. rewrite Rsqr_sqrt by lra. unfold Rsqr. lra.
Qed.
