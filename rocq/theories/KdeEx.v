(** Examples and counterexamples for the kernel density estimate. *)
From Verif Require Import Prelude NpModel NpProofs CircleSpec UtilsModel UtilsProofs DescModel Desc2Model IntSpec IntProofs DistModel DistSpec DistProofs Dist4Proofs Base11Proofs
  VzModel KdeModel KdeSpec KdeProofs.

Lemma ex_kde : [0; PI / 2; 2 * PI] <> [] /\ (forall a, In a [0; PI / 2; 2 * PI] -> 0 <= a <= 2 * PI) /\ 0 < 1 <= PI /\
  estimate 1 [0; PI / 2; 2 * PI] 0 = 5 / 8.
Proof.
  pose proof PI_gt3. split; [discriminate|]. split; [intros a [<-|[<-|[<-|[]]]]; lra|]. split; [lra|]. unfold estimate. cbn [map length]. rewrite !Rsum_cons. change (Rsum []) with 0.
  assert (G0 : gap 0 0 = 0) by (rewrite (gap_near 0 0 0); rewrite Rmult_0_r, !Rminus_0_r, Rabs_R0; lra).
  assert (G1 : gap 0 (PI / 2) = PI / 2) by (rewrite (gap_near 0 (PI / 2) 0); rewrite Rmult_0_r, Rabs_left1; lra).
  assert (G2 : gap 0 (2 * PI) = 0) by (rewrite (gap_same 0 (2 * PI) 0); [exact G0|exists 1%Z; ring]).
  rewrite G0, G1, G2. unfold quartic. destruct (Rltb_spec 0 1); [|lra]. destruct (Rltb_spec (PI / 2) 1); [lra|]. simpl INR. field.
Qed.
(** An observation at -90 degrees. *)
Lemma kde_refuted : exists alpha h i f, alpha <> [] /\ 0 < h <= PI /\ (i < 100)%nat /\
  nth i (nonparametric_density_estimation alpha h 1) (0, 0) = (2 * PI * (INR i / 99), f) /\
  (1 + f) ^ 2 <> 1 ^ 2 * (1 + PI * estimate h alpha (2 * PI * (INR i / 99))).
Proof.
  pose proof PI_gt3. exists [- (PI / 2)], 1, 99%nat, (npde [- (PI / 2)] 1 1 (2 * PI * (INR 99 / 99))). split; [discriminate|]. split; [lra|]. split; [lia|]. split; [apply (proj2 (npde_grid _ _ _)); lia|].
  replace (2 * PI * (INR 99 / 99)) with (2 * PI) by (replace (INR 99) with 99 by (cbn; ring); field).
  assert (Z : estimate 1 [- (PI / 2)] (2 * PI) = 0).
  { unfold estimate. cbn [map length]. rewrite Rsum_cons. change (Rsum []) with 0. rewrite (gap_near (2 * PI) (- (PI / 2)) 1); rewrite Rmult_1_r; replace (2 * PI - - (PI / 2) - 2 * PI) with (PI / 2) by field; rewrite Rabs_pos_eq; try lra.
    unfold quartic. destruct (Rltb_spec (PI / 2) 1); [lra|]. simpl INR. field. }
  rewrite Z. unfold npde. cbn [map length]. rewrite Rsum_cons. change (Rsum []) with 0. replace (2 * PI - - (PI / 2)) with (5 / 2 * PI) by field. rewrite (Rabs_pos_eq (5 / 2 * PI)) by lra.
  rewrite (Rmin_right (5 / 2 * PI)), (Rmin_left (2 * PI - 5 / 2 * PI)) by lra. simpl INR. set (f := 9375 / 10000 * _ / _).
  assert (F : 0 < f). { unfold f. replace (1 * 1) with 1 by ring. unfold Rdiv at 1. rewrite Rinv_1, Rmult_1_r. apply Rmult_lt_0_compat; [lra|]. rewrite Rplus_0_r. assert ((2 * PI - 5 / 2 * PI) ^ 2 / 1 ^ 2 > 2) by nra. nra. }
  assert (P : 0 < PI * f) by (apply Rmult_lt_0_compat; lra). replace (1 + (1 * sqrt (1 + PI * f) - 1)) with (sqrt (1 + PI * f)) by ring.
  rewrite <- Rsqr_pow2, Rsqr_sqrt by lra. lra.
Qed.
(** Two more of 32 observations at 0 than at pi. *)
Lemma smooth_refuted : exists r n h, compute_smooth_params r n = Ok h /\ forall alpha, alpha <> [] -> exists v, v < 1 /\ integral (estimate h alpha) 0 (2 * PI) v.
Proof.
  set (k := 2 * (1 / 16) + (1 / 16) ^ 3 + 5 * (1 / 16) ^ 5 / 6). assert (K : 0 < k < 127 / 1000) by (unfold k; lra).
  exists (1 / 16), 32, (sqrt 7 * (1 / sqrt k) / Rpower 32 (/ 5)). split.
  - unfold compute_smooth_params, circ_kappa, kappa0. destruct (Rltb_spec (1 / 16) (53 / 100)); [|lra]. fold k. destruct (Rleb_spec 32 15); [lra|]. cbn [andb]. cbn [bind]. destruct (Rleb_spec k 0); [lra|]. reflexivity.
  - intros alpha N. apply estimate_wide; [|exact N].
    assert (R2 : Rpower 32 (/ 5) = 2). { replace 32 with (Rpower 2 5) by (replace 5 with (INR 5) by (cbn; ring); rewrite Rpower_pow by lra; ring). rewrite Rpower_mult, Rinv_r by lra. apply Rpower_1. lra. }
    rewrite R2. assert (S : 0 < sqrt k) by (apply sqrt_lt_R0; lra). pose proof PI_RGT_0. pose proof pi_digits.
    assert (L : PI * (2 * sqrt k) < sqrt 7).
    { rewrite <- (sqrt_pow2 (PI * (2 * sqrt k))) by (apply Rmult_le_pos; lra). apply sqrt_lt_1; [apply pow2_ge_0|lra|]. replace ((PI * (2 * sqrt k)) ^ 2) with (4 * PI ^ 2 * (sqrt k) ^ 2) by ring. rewrite pow2_sqrt by lra. nra. }
    apply (Rmult_lt_reg_r (2 * sqrt k)); [lra|]. replace (sqrt 7 * (1 / sqrt k) / 2 * (2 * sqrt k)) with (sqrt 7) by (field; lra). exact L.
Qed.
