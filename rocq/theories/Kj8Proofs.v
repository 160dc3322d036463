(** The floor of the denominator next to rho = 1 takes probability away. *)
From Verif Require Import Prelude EmModel NpModel NpProofs CircleSpec UtilsModel DescModel IntSpec IntProofs DistModel DistSpec DistProofs
  Dist2Proofs Dist4Proofs Dist7Proofs Dist8Proofs KjModel KjSpec KjProofs Kj2Proofs.

Definition kj_sharp : kj := {| kj_mu := PI; kj_gamma := 1 / 2; kj_rho := 1 - / 10 ^ 9; kj_lam := 0 |}.
Lemma kj_sharp_doc : kj_documented kj_sharp.
Proof. pose proof PI_RGT_0. unfold kj_documented, kj_sharp. cbn [kj_mu kj_gamma kj_rho kj_lam]. rewrite cos_0, sin_0. repeat split; try lra. Qed.
Lemma cont_max f c x : continuity_pt f x -> continuity_pt (fun y => Rmax (f y) c) x.
Proof.
  intros Hf. apply (cont_ext (fun y => / 2 * ((f y + c) + Rabs (f y + - c)))).
  - intros y. unfold Rmax, Rabs. destruct (Rle_dec (f y) c), (Rcase_abs (f y + - c)); lra.
  - apply cont_mult; [apply cont_const|]. apply cont_plus; [apply cont_plus; [exact Hf|apply cont_const]|]. apply cont_abs. apply cont_plus; [exact Hf|apply cont_const].
Qed.
(** Cut off, the density is at most the formula, and less at the peak. *)
Lemma kj_sharp_le x : kj_pdf kj_sharp x <= kjU kj_sharp x.
Proof.
  pose proof PI_RGT_0. unfold kj_pdf, kjU, kj_sharp. cbn [kj_mu kj_gamma kj_rho kj_lam]. rewrite cos_0. replace (x - PI - 0) with (x - PI) by ring. set (r := 1 - / 10 ^ 9). set (t := cos (x - PI)).
  assert (Hr : 0 <= r < 1) by (unfold r; lra). pose proof (kjD_pos r (x - PI) Hr) as D. fold (kjD r (x - PI)). assert (Q : 1 - r ^ 2 - kjD r (x - PI) = 2 * r * (t - r)) by (unfold kjD, t; ring).
  apply Rmax_lub.
  - apply Rmult_le_compat_r; [left; apply Rinv_0_lt_compat; lra|]. apply Rplus_le_compat_l. destruct (Rle_dec (/ 10 ^ 15) (kjD r (x - PI))) as [L|L]; [rewrite Rmax_left by exact L; fold t; right; reflexivity|].
    apply Rnot_le_lt in L. rewrite Rmax_right by lra. assert (0 < t - r * 1) by (unfold r in *; nra). unfold Rdiv. apply Rmult_le_compat_l; [lra|]. apply Rinv_le_contravar; lra.
  - pose proof (kjU_nonneg kj_sharp) as N. unfold kjU, kj_sharp in N. cbn [kj_mu kj_gamma kj_rho kj_lam] in N. specialize (N Hr ltac:(lra)). rewrite cos_0 in N. specialize (N ltac:(unfold kj_constraint; rewrite cos_0, sin_0; lra) x). replace (x - PI - 0) with (x - PI) in N by ring. exact N.
Qed.
Lemma kj_sharp_lt : kj_pdf kj_sharp PI < kjU kj_sharp PI.
Proof.
  pose proof PI_RGT_0. unfold kj_pdf, kjU, kj_sharp, kjD. cbn [kj_mu kj_gamma kj_rho kj_lam]. replace (PI - PI - 0) with 0 by ring. replace (PI - PI) with 0 by ring. rewrite cos_0.
  rewrite (Rmax_right (1 + (1 - / 10 ^ 9) ^ 2 - 2 * (1 - / 10 ^ 9) * 1)) by lra. apply Rmax_lub_lt.
  - apply Rmult_lt_compat_r; [apply Rinv_0_lt_compat; lra|]. apply Rplus_lt_compat_l. unfold Rdiv. apply Rmult_lt_compat_l; [lra|]. apply Rinv_lt_contravar; lra.
  - apply Rdiv_lt_0_compat; [|lra]. assert (0 < 2 * (1 / 2) * (1 - (1 - / 10 ^ 9) * 1) / (1 + (1 - / 10 ^ 9) ^ 2 - 2 * (1 - / 10 ^ 9) * 1)) by (apply Rdiv_lt_0_compat; lra). lra.
Qed.
Lemma kj_pdf_cont c x : continuity_pt (kj_pdf c) x.
Proof.
  assert (Cx : forall a, continuity_pt (fun y => cos (y + - a)) x).
  { intros a. apply (continuity_pt_comp (fun y => y + - a) cos x); [|apply continuity_cos]. apply cont_plus; [apply derivable_continuous_pt, derivable_pt_id|apply cont_const]. }
  unfold kj_pdf. apply cont_max. unfold Rdiv. apply cont_mult; [|apply cont_const]. apply cont_plus; [apply cont_const|].
  apply cont_mult.
  - apply cont_mult; [apply cont_const|]. apply (cont_plus (fun y => cos (y - kj_mu c)) (fun _ => - (kj_rho c * cos (kj_lam c)))); [apply Cx|apply cont_const].
  - apply (continuity_pt_inv (fun y => Rmax (1 + kj_rho c ^ 2 - 2 * kj_rho c * cos (y - kj_mu c - kj_lam c)) (/ 10 ^ 15))).
    + apply cont_max. apply (cont_ext (fun y => 1 + kj_rho c ^ 2 + - (2 * kj_rho c) * cos (y + - (kj_mu c + kj_lam c)))).
      * intros y. replace (y + - (kj_mu c + kj_lam c)) with (y - kj_mu c - kj_lam c) by ring. ring.
      * apply cont_plus; [apply cont_const|]. apply cont_mult; [apply cont_const|apply Cx].
    + assert (0 < / 10 ^ 15) by (apply Rinv_0_lt_compat, pow_lt; lra). pose proof (Rmax_r (1 + kj_rho c ^ 2 - 2 * kj_rho c * cos (x - kj_mu c - kj_lam c)) (/ 10 ^ 15)). lra.
Qed.
Lemma kj_sharp_total v : integral (kj_pdf kj_sharp) 0 (2 * PI) v -> v <> 1.
Proof.
  intros Hi ->. pose proof PI_RGT_0 as P0. pose proof kj_sharp_lt as L.
  assert (Hr : 0 <= kj_rho kj_sharp < 1) by (cbn [kj_sharp kj_rho]; lra).
  assert (IU : integral (kjU kj_sharp) 0 (2 * PI) 1) by (apply kjU_total; cbn [kj_sharp kj_mu kj_rho kj_lam]; lra).
  assert (Z : kjU kj_sharp PI + -1 * kj_pdf kj_sharp PI = 0).
  { apply (zero_integral (fun x => kjU kj_sharp x + -1 * kj_pdf kj_sharp x) 0 (2 * PI)); try lra.
    - intros x _. apply cont_plus; [apply kjU_cont; exact Hr|]. apply cont_mult; [apply cont_const|apply kj_pdf_cont].
    - intros x _. pose proof (kj_sharp_le x). lra.
    - eapply integral_val; [|apply integral_lin; [exact IU|exact Hi]]. ring. }
  lra.
Qed.
Lemma kj_sharp_moment : exists c f p, kj_documented c /\ (forall x, public_pdf (kj_argcheck c) (kj_pdf c) x = Fin (f x)) /\
  ~ trig_moment_of f p (fst (kj_trig_moment c p)) (snd (kj_trig_moment c p)).
Proof.
  pose proof (kj_documented_ok _ kj_sharp_doc) as Ha. pose proof PI_RGT_0.
  set (f := fun x => match public_pdf true (kj_pdf kj_sharp) x with Fin v => v | _ => 0 end).
  assert (Hf : forall x, public_pdf true (kj_pdf kj_sharp) x = Fin (f x)).
  { intros x. unfold f, public_pdf. cbn [negb]. destruct (_ && _)%bool; reflexivity. }
  exists kj_sharp, f, 0%Z. rewrite Ha. split; [exact kj_sharp_doc|]. split; [exact Hf|]. intros [Hc _]. cbn [kj_trig_moment Z.eqb fst] in Hc.
  pose proof (pub_pdf_on _ _ Hf) as E. apply (kj_sharp_total 1); [|reflexivity].
  eapply integral_ext; [lra| |exact Hc]. intros x Hx. cbv beta. rewrite Rmult_0_l, cos_0, Rmult_1_l. apply E. exact Hx.
Qed.
Lemma kj_sharp_not_density : exists c, kj_documented c /\ ~ pdf_is_density (public_pdf (kj_argcheck c) (kj_pdf c)).
Proof.
  pose proof PI_RGT_0. exists kj_sharp. split; [exact kj_sharp_doc|]. rewrite (kj_documented_ok _ kj_sharp_doc). intros (f & Hf & _ & Hd). destruct Hd as [_ Hi].
  pose proof (pub_pdf_on _ _ Hf) as E. apply (kj_sharp_total 1); [|reflexivity]. eapply integral_ext; [lra| |exact Hi]. intros x Hx. apply E, Hx.
Qed.
