(** Proofs about circularuniform, triangular and cardioid: densities and distribution
    functions. *)
From Verif Require Import Prelude NpModel NpProofs CircleSpec IntSpec IntProofs DistModel DistSpec.

Lemma wrap_in x : 0 <= x <= 2 * PI -> wrap_angles x = x.
Proof.
  intros H. unfold wrap_angles. destruct (Reqb_spec x (2 * PI)) as [->|N]; [reflexivity|].
  apply pymod_small. lra.
Qed.
Lemma wrap_range x : 0 <= wrap_angles x <= 2 * PI.
Proof.
  pose proof PI2_pos. unfold wrap_angles. destruct (Reqb_spec x (2 * PI)); [lra|].
  pose proof (pymod_range x (2 * PI) H). lra.
Qed.
Lemma wrap_same x : same_dir (wrap_angles x) x.
Proof.
  unfold wrap_angles. destruct (Reqb_spec x (2 * PI)) as [->|N]; [apply same_dir_refl|].
  apply pymod_same_dir.
Qed.

Lemma public_pdf_fin f x : public_pdf true f x = Fin (f (wrap_angles x)).
Proof.
  unfold public_pdf. cbn [negb]. pose proof (wrap_range x) as [H1 H2].
  apply Rleb_true in H1, H2. rewrite H1, H2. reflexivity.
Qed.

Definition pub_F (F : R -> R) (x : R) : R :=
  let y := wrap_angles x in if Rleb (2 * PI) y then 1 else if Rltb 0 y then F y else 0.
Lemma public_cdf_fin F x : public_cdf true F x = Fin (pub_F F x).
Proof.
  unfold public_cdf, pub_F. cbn [negb].
  destruct (Rleb (2 * PI) (wrap_angles x)); [reflexivity|].
  destruct (Rltb 0 (wrap_angles x)); reflexivity.
Qed.

Lemma pub_F_eq F G : G 0 = 0 -> G (2 * PI) = 1 -> (forall x, 0 < x < 2 * PI -> F x = G x) ->
  forall x, 0 <= x <= 2 * PI -> pub_F F x = G x.
Proof.
  intros G0 G1 E x Hx. unfold pub_F. rewrite wrap_in by exact Hx.
  destruct (Rleb_spec (2 * PI) x) as [H|H].
  { replace x with (2 * PI) by lra. lra. }
  destruct (Rltb_spec 0 x) as [K|K]; [apply E; lra|]. replace x with 0 by lra. lra.
Qed.

(** The scheme of every closed-form distribution function: an antiderivative of the density
    that is 0 at 0 and 1 at 2 pi. *)
Lemma describes_intro f F G :
  (forall x, 0 <= x <= 2 * PI -> continuity_pt f x) ->
  (forall x, 0 <= x <= 2 * PI -> derivable_pt_lim G x (f x)) ->
  G 0 = 0 -> G (2 * PI) = 1 ->
  (forall x, 0 < x < 2 * PI -> F x = G x) ->
  (forall x, 0 <= x <= 2 * PI -> 0 <= f x) -> f 0 = f (2 * PI) ->
  describes (public_pdf true f) (public_cdf true F).
Proof.
  intros C D G0 G1 E N P. pose proof PI2_pos as Hp.
  pose proof (pub_F_eq F G G0 G1 E) as FG.
  exists (fun x => f (wrap_angles x)), (pub_F F).
  split; [intros; apply public_pdf_fin|].
  split; [intros; apply public_cdf_fin|].
  split.
  { intros x y S. unfold wrap_angles.
    assert (Q : pymod x (2 * PI) = pymod y (2 * PI)) by (apply same_dir_pymod; exact S).
    assert (Z : pymod (2 * PI) (2 * PI) = 0).
    { apply pymod_unique; [lra|]. exists 1%Z. ring. }
    destruct (Reqb_spec x (2 * PI)) as [->|Nx]; destruct (Reqb_spec y (2 * PI)) as [->|Ny]; auto.
    - rewrite <- Q, Z. auto.
    - rewrite Q, Z. auto.
    - rewrite Q. reflexivity. }
  assert (I : forall a b, 0 <= a -> a <= b -> b <= 2 * PI ->
            integral (fun x => f (wrap_angles x)) a b (G b - G a)).
  { intros a b Ha Hab Hb. apply (integral_ext f); [exact Hab| |].
    - intros x Hx. rewrite wrap_in by lra. reflexivity.
    - apply ftc; [exact Hab| |]; intros x Hx; [apply C|apply D]; lra. }
  split.
  - split.
    + intros x. apply N. apply wrap_range.
    + replace 1 with (G (2 * PI) - G 0) by lra. apply I; lra.
  - split; [rewrite FG; lra|]. split; [rewrite FG; lra|]. split.
    + intros a b Ha Hab Hb. rewrite !FG by lra. split; [|apply I; assumption].
      apply (mono_of_dlim G f 0 (2 * PI)); auto.
    + intros x Hx. apply (dlim_ext_loc G _ x _ 0 (2 * PI)); [exact Hx| |].
      * intros y Hy. symmetry. apply FG. lra.
      * rewrite wrap_in by lra. apply D. lra.
Qed.

(** ** circularuniform *)
Lemma cu_describes : describes (public_pdf true cu_pdf) (public_cdf true cu_cdf).
Proof.
  pose proof PI_pos.
  apply (describes_intro _ _ cu_cdf); unfold cu_pdf, cu_cdf.
  - intros. eapply dlim_cont. apply dlim_const.
  - intros. eapply dlim_eq; [|apply dlim_divc; apply dlim_id]. reflexivity.
  - field. lra.
  - field. lra.
  - reflexivity.
  - intros. apply Rlt_le. apply Rdiv_lt_0_compat; lra.
  - reflexivity.
Qed.

(** ** triangular *)
Definition tri_lo (rho x : R) : R := ((4 + PI ^ 2 * rho) * x - PI * rho * x ^ 2) / (8 * PI).
Definition tri_up (rho x : R) : R :=
  1 / 2 + ((4 - 3 * PI ^ 2 * rho) * (x - PI) + PI * rho * (x ^ 2 - PI ^ 2)) / (8 * PI).
Definition tri_G (rho x : R) : R := if Rle_dec x PI then tri_lo rho x else tri_up rho x.

Lemma dlim_sq x : derivable_pt_lim (fun y => y ^ 2) x (2 * x).
Proof.
  apply (dlim_ext (fun y => y * y)); [intros; ring|].
  eapply dlim_eq; [|apply (dlim_mult (fun y => y) (fun y => y)); apply dlim_id].
  cbv beta. ring.
Qed.

Lemma tri_lo_d rho x : derivable_pt_lim (tri_lo rho) x
  ((4 - PI ^ 2 * rho + 2 * PI * rho * (PI - x)) / 8 / PI).
Proof.
  pose proof PI_pos. unfold tri_lo.
  eapply dlim_eq; [|apply dlim_divc; apply dlim_minus;
    [apply dlim_scal; apply dlim_id | apply dlim_scal; apply dlim_sq]].
  field. lra.
Qed.
Lemma tri_up_d rho x : derivable_pt_lim (tri_up rho) x
  ((4 - PI ^ 2 * rho + 2 * PI * rho * (x - PI)) / 8 / PI).
Proof.
  pose proof PI_pos. unfold tri_up.
  eapply dlim_eq; [|apply dlim_plus; [apply dlim_const|apply dlim_divc; apply dlim_plus;
    [apply dlim_scal; apply dlim_minus; [apply dlim_id|apply dlim_const]
    |apply dlim_scal; apply dlim_minus; [apply dlim_sq|apply dlim_const]]]].
  field. lra.
Qed.

(** Two functions that agree in value at a point and have the same derivative there can be
    glued. *)
Lemma dlim_glue f g a l : f a = g a -> derivable_pt_lim f a l -> derivable_pt_lim g a l ->
  derivable_pt_lim (fun x => if Rle_dec x a then f x else g x) a l.
Proof.
  intros E Df Dg eps He.
  destruct (Df eps He) as [d1 H1]. destruct (Dg eps He) as [d2 H2].
  assert (Hm : 0 < Rmin d1 d2) by (apply Rmin_pos; apply cond_pos).
  exists (mkposreal _ Hm). intros h Hh Hd. cbn in Hd.
  pose proof (Rmin_l d1 d2). pose proof (Rmin_r d1 d2).
  destruct (Rle_dec a a) as [_|N]; [|lra].
  destruct (Rle_dec (a + h) a).
  - apply H1; auto; lra.
  - rewrite E. apply H2; auto; lra.
Qed.

Lemma tri_G_d rho x : derivable_pt_lim (tri_G rho) x (tri_pdf rho x).
Proof.
  pose proof PI_pos. unfold tri_pdf.
  destruct (Rtotal_order x PI) as [L|[->|G]].
  - apply (dlim_ext_loc (tri_lo rho) _ x _ (x - 1) PI); [lra| |].
    + intros y Hy. unfold tri_G. destruct (Rle_dec y PI); [reflexivity|lra].
    + rewrite Rabs_pos_eq by lra. apply tri_lo_d.
  - apply dlim_glue.
    + unfold tri_lo, tri_up. field. lra.
    + eapply dlim_eq; [|apply tri_lo_d]. rewrite Rabs_pos_eq by lra. reflexivity.
    + eapply dlim_eq; [|apply tri_up_d]. rewrite Rabs_pos_eq by lra. reflexivity.
  - apply (dlim_ext_loc (tri_up rho) _ x _ PI (x + 1)); [lra| |].
    + intros y Hy. unfold tri_G. destruct (Rle_dec y PI); [lra|reflexivity].
    + rewrite Rabs_left1 by lra. replace (- (PI - x)) with (x - PI) by ring. apply tri_up_d.
Qed.

Lemma cont_abs f x : continuity_pt f x -> continuity_pt (fun y => Rabs (f y)) x.
Proof.
  intros C. change (continuity_pt (comp Rabs f) x).
  apply continuity_pt_comp; [exact C|]. apply Rcontinuity_abs.
Qed.

Lemma tri_pdf_cont rho x : continuity_pt (tri_pdf rho) x.
Proof.
  unfold tri_pdf, Rdiv.
  assert (C : continuity_pt (fun y => Rabs (PI - y)) x).
  { apply cont_abs. eapply dlim_cont. apply dlim_minus; [apply dlim_const|apply dlim_id]. }
  change (continuity_pt (mult_fct (mult_fct (plus_fct (fct_cte (4 - PI ^ 2 * rho))
    (mult_fct (fct_cte (2 * PI * rho)) (fun y => Rabs (PI - y)))) (fct_cte (/ 8))) (fct_cte (/ PI))) x).
  assert (K : forall c, continuity_pt (fct_cte c) x).
  { intros c. apply continuity_pt_const. intros a b. reflexivity. }
  apply continuity_pt_mult; [|apply K]. apply continuity_pt_mult; [|apply K].
  apply continuity_pt_plus; [apply K|]. apply continuity_pt_mult; [apply K|exact C].
Qed.

Lemma tri_ok_spec rho : tri_ok rho = true -> 0 <= rho /\ PI ^ 2 * rho <= 4.
Proof.
  intros H. apply andb_prop in H. destruct H as [H1 H2].
  apply Rleb_true in H1, H2. split; [exact H1|]. pose proof PI_pos.
  assert (P : 0 < PI ^ 2) by (apply pow_lt; exact H).
  apply (Rmult_le_compat_l (PI ^ 2)) in H2; [|lra].
  replace (PI ^ 2 * (4 / PI ^ 2)) with 4 in H2 by (field; lra). exact H2.
Qed.

Lemma tri_pdf_nonneg rho x : 0 <= rho -> PI ^ 2 * rho <= 4 -> 0 <= tri_pdf rho x.
Proof.
  intros H1 H2. pose proof PI_pos. unfold tri_pdf.
  pose proof (Rabs_pos (PI - x)).
  assert (0 <= 2 * PI * rho * Rabs (PI - x)).
  { apply Rmult_le_pos; [|assumption]. apply Rmult_le_pos; lra. }
  unfold Rdiv. apply Rmult_le_pos; [apply Rmult_le_pos|]; try lra.
  apply Rlt_le, Rinv_0_lt_compat; lra.
Qed.

Lemma tri_cdf_G rho x : 0 < x < 2 * PI -> tri_cdf rho x = tri_G rho x.
Proof.
  intros Hx. unfold tri_cdf, tri_G.
  destruct (Rleb_spec (2 * PI) x); [lra|].
  destruct (Rleb_spec 0 x); [|lra]. cbn [andb].
  destruct (Rleb_spec x PI); destruct (Rle_dec x PI); try lra; try reflexivity.
  destruct (Rltb_spec PI x); [|lra]. destruct (Rltb_spec x (2 * PI)); [|lra]. reflexivity.
Qed.

Lemma tri_G_0 rho : tri_G rho 0 = 0.
Proof.
  pose proof PI_pos. unfold tri_G, tri_lo. destruct (Rle_dec 0 PI); [|lra]. field. lra.
Qed.
Lemma tri_G_2pi rho : tri_G rho (2 * PI) = 1.
Proof.
  pose proof PI_pos. unfold tri_G, tri_up. destruct (Rle_dec (2 * PI) PI); [lra|]. field. lra.
Qed.

Lemma tri_describes rho : tri_ok rho = true ->
  describes (public_pdf (tri_ok rho) (tri_pdf rho)) (public_cdf (tri_ok rho) (tri_cdf rho)).
Proof.
  intros Hok. rewrite Hok. apply tri_ok_spec in Hok. destruct Hok as [H1 H2].
  pose proof PI_pos.
  apply (describes_intro _ _ (tri_G rho)).
  - intros. apply tri_pdf_cont.
  - intros. apply tri_G_d.
  - apply tri_G_0.
  - apply tri_G_2pi.
  - intros x Hx. apply tri_cdf_G. exact Hx.
  - intros. apply tri_pdf_nonneg; assumption.
  - unfold tri_pdf. rewrite Rabs_pos_eq by lra. rewrite Rabs_left1 by lra. field. lra.
Qed.

(** ** cardioid *)
Lemma car_cdf_d mu rho x : derivable_pt_lim (car_cdf mu rho) x (car_pdf mu rho x).
Proof.
  pose proof PI_pos. unfold car_cdf, car_pdf.
  eapply dlim_eq; [|apply dlim_divc; apply dlim_plus; [apply dlim_id|apply dlim_scal;
    apply dlim_plus; [apply dlim_sin; apply dlim_minus; [apply dlim_id|apply dlim_const]|apply dlim_const]]].
  cbv beta. field. lra.
Qed.
Lemma car_pdf_cont mu rho x : continuity_pt (car_pdf mu rho) x.
Proof.
  unfold car_pdf. eapply dlim_cont. apply dlim_divc. apply dlim_divc. apply dlim_plus; [apply dlim_const|].
  apply dlim_scal. apply dlim_cos. apply dlim_minus; [apply dlim_id|apply dlim_const].
Qed.
Lemma car_ok_spec mu rho : car_ok mu rho = true -> 0 <= mu <= 2 * PI /\ 0 <= rho <= 1 / 2.
Proof.
  intros H. unfold car_ok in H. repeat (apply andb_prop in H; destruct H as [H ?]).
  repeat match goal with h : Rleb _ _ = true |- _ => apply Rleb_true in h end. lra.
Qed.
Lemma car_pdf_nonneg mu rho x : 0 <= rho <= 1 / 2 -> 0 <= car_pdf mu rho x.
Proof.
  intros H. pose proof PI_pos. pose proof (COS_bound (x - mu)). unfold car_pdf, Rdiv.
  assert (0 <= 1 + 2 * rho * cos (x - mu)) by nra.
  apply Rmult_le_pos; [apply Rmult_le_pos|]; try lra.
  apply Rlt_le, Rinv_0_lt_compat; lra.
Qed.
Lemma car_cdf_0 mu rho : car_cdf mu rho 0 = 0.
Proof.
  pose proof PI_pos. unfold car_cdf. replace (0 - mu) with (- mu) by ring.
  rewrite sin_neg. field. lra.
Qed.
Lemma sin_2pi_minus mu : sin (2 * PI - mu) = - sin mu.
Proof. rewrite sin_minus, sin_2PI, cos_2PI. ring. Qed.
Lemma cos_2pi_minus mu : cos (2 * PI - mu) = cos mu.
Proof. rewrite cos_minus, sin_2PI, cos_2PI. ring. Qed.
Lemma car_cdf_2pi mu rho : car_cdf mu rho (2 * PI) = 1.
Proof. pose proof PI_pos. unfold car_cdf. rewrite sin_2pi_minus. field. lra. Qed.

Lemma car_describes mu rho : car_ok mu rho = true ->
  describes (public_pdf (car_ok mu rho) (car_pdf mu rho)) (public_cdf (car_ok mu rho) (car_cdf mu rho)).
Proof.
  intros Hok. rewrite Hok. apply car_ok_spec in Hok. destruct Hok as [H1 H2].
  apply (describes_intro _ _ (car_cdf mu rho)).
  - intros. apply car_pdf_cont.
  - intros. apply car_cdf_d.
  - apply car_cdf_0.
  - apply car_cdf_2pi.
  - reflexivity.
  - intros. apply car_pdf_nonneg. exact H2.
  - unfold car_pdf. rewrite cos_2pi_minus. replace (0 - mu) with (- mu) by ring.
    rewrite cos_neg. reflexivity.
Qed.
