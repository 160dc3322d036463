(** The median does not rotate; positional loc; examples. *)
From Coq Require Import String.
From Verif Require Import Prelude NpModel NpProofs IntSpec IntProofs DistSpec DistModel DistProofs Dist2Proofs Dist3Proofs Dist4Proofs Dist5Proofs Dist7Proofs CcModel CcSpec CcProofs Cc2Proofs Cc3Proofs Cc4Proofs Desc6Proofs.
Open Scope string_scope.

Lemma sin_abs_le x : Rabs (sin x) <= Rabs x.
Proof.
  assert (P : forall y, 0 <= y -> Rabs (sin y) <= y).
  { intros y Hy. destruct (Req_dec y 0) as [->|N]; [rewrite sin_0, Rabs_R0; lra|].
    assert (U : sin y < y) by (apply sin_lt_x; lra).
    assert (L : - y < sin y).
    { destruct (Rle_dec y 1) as [L|L].
      - pose proof PI_gt3. assert (0 < sin y) by (apply sin_gt_0; lra). lra.
      - pose proof (SIN_bound y). lra. }
    apply Rabs_le. lra. }
  destruct (Rle_dec 0 x) as [H|H].
  - rewrite (Rabs_right x) by lra. apply P, H.
  - rewrite (Rabs_left x) by lra. rewrite <- (Ropp_involutive x) at 1. rewrite sin_neg, Rabs_Ropp. apply P. lra.
Qed.
Lemma car_half mu x p e : mu = 0 \/ mu = PI -> 0 < x < 2 * PI -> public_cdf (car_ok mu (1 / 4)) (car_cdf mu (1 / 4)) x = Fin p ->
  Rabs (p - 1 / 2) <= e -> Rabs (x - PI) <= 4 * PI * e.
Proof.
  intros Hmu Hx E He. pose proof PI_pos. assert (Ok : car_ok mu (1 / 4) = true).
  { unfold car_ok. rewrite !andb_true_iff, !Rleb_true. destruct Hmu as [->| ->]; lra. }
  unfold public_cdf in E. rewrite Ok in E. cbn [negb] in E. cbv zeta in E. rewrite wrap_in in E by lra. rewrite (proj2 (Rleb_false (2 * PI) x)) in E by lra.
  rewrite (proj2 (Rltb_true 0 x)) in E by lra. injection E as E. unfold car_cdf in E.
  assert (Sb : Rabs (sin x) <= Rabs (x - PI)).
  { replace (sin x) with (- sin (x - PI)) by (rewrite sin_minus, cos_PI, sin_PI; ring). rewrite Rabs_Ropp. apply sin_abs_le. }
  assert (Ex : x - PI = 2 * PI * (p - 1 / 2) - (if Reqb mu 0 then 1 else - 1) * (1 / 2 * sin x)).
  { rewrite <- E. destruct Hmu as [->| ->].
    - rewrite (proj2 (Reqb_true 0 0) eq_refl), Rminus_0_r, sin_0. field. lra.
    - destruct (Reqb PI 0) eqn:E0; [apply Reqb_true in E0; lra|]. rewrite sin_minus, cos_PI, sin_PI. field. lra. }
  assert (A : Rabs (x - PI) <= 2 * PI * e + 1 / 2 * Rabs (x - PI)).
  { rewrite Ex at 1. eapply Rle_trans; [apply Rabs_triang|]. apply Rplus_le_compat.
    - rewrite Rabs_mult, (Rabs_right (2 * PI)) by lra. apply Rmult_le_compat_l; lra.
    - rewrite Rabs_Ropp, Rabs_mult. replace (Rabs (if Reqb mu 0 then 1 else - 1)) with 1 by (destruct (Reqb mu 0); [rewrite Rabs_R1; reflexivity|rewrite Rabs_left; lra]).
      rewrite Rabs_mult, (Rabs_right (1 / 2)) by lra. lra. }
  lra.
Qed.
Lemma car_median mu : mu = 0 \/ mu = PI -> exists m, cc_median (car_ok mu (1 / 4)) (car_ppf mu (1 / 4)) = Fin m /\ Rabs (m - PI) <= / 10 ^ 8.
Proof.
  intros Hmu. pose proof PI_pos. assert (Ok : car_ok mu (1 / 4) = true).
  { unfold car_ok. rewrite !andb_true_iff, !Rleb_true. destruct Hmu as [->| ->]; lra. }
  destruct (car_inverse mu (1 / 4) (1 / 2) Ok ltac:(lra)) as (x & p & E1 & Hx & E2 & Hp). exists x. split; [exact E1|].
  assert (Hx' : 0 < x < 2 * PI).
  { assert (B : Rabs (p - 1 / 2) < 1 / 2) by lra. unfold public_cdf in E2. rewrite Ok in E2. cbn [negb] in E2. cbv zeta in E2. rewrite wrap_in in E2 by lra.
    destruct (Rleb_spec (2 * PI) x) as [L|L].
    - injection E2 as <-. rewrite Rabs_right in B; lra.
    - destruct (Rltb_spec 0 x) as [L0|L0]; [lra|]. injection E2 as <-. rewrite Rabs_left in B; lra. }
  pose proof (car_half mu x p _ Hmu Hx' E2 Hp). pose proof PI_4. assert (4 * PI * / 2 ^ 32 <= / 10 ^ 8) by lra. lra.
Qed.
(** The distribution and its rotation by half a turn have the same median. *)
Lemma median_refuted : exists mu t rho m m', car_ok mu rho = true /\ car_ok (mu + t) rho = true /\
  cc_median (car_ok mu rho) (car_ppf mu rho) = Fin m /\ cc_median (car_ok (mu + t) rho) (car_ppf (mu + t) rho) = Fin m' /\
  (forall x, car_pdf (mu + t) rho (x + t) = car_pdf mu rho x) /\ cos (m' - (m + t)) < - (99 / 100) /\
  cc_mean (rho * cos mu, rho * sin mu) = Fin 0 /\ Rabs (m - PI) <= / 10 ^ 8.
Proof.
  pose proof PI_pos. destruct (car_median 0 (or_introl eq_refl)) as (m & E & H1). destruct (car_median PI (or_intror eq_refl)) as (m' & E' & H2).
  exists 0, PI, (1 / 4), m, m'. rewrite Rplus_0_l. repeat split; auto.
  - unfold car_ok. rewrite !andb_true_iff, !Rleb_true. lra.
  - unfold car_ok. rewrite !andb_true_iff, !Rleb_true. lra.
  - intros x. unfold car_pdf. replace (x + PI - PI) with (x - 0) by ring. reflexivity.
  - replace (m' - (m + PI)) with ((m' - m) - PI) by ring. rewrite cos_minus, cos_PI, sin_PI.
    assert (A : - (2 / 10 ^ 8) <= m' - m <= 2 / 10 ^ 8) by (apply abs_le_inv in H1; apply abs_le_inv in H2; lra).
    assert (C : 1 - (m' - m) ^ 2 / 2 <= cos (m' - m)).
    { apply cos_ge. }
    nra.
  - assert (T : 0 < / 10 ^ 12) by (apply Rinv_0_lt_compat; lra).
    assert (U : / 10 ^ 12 < 1 / 4 <= 1) by lra.
    assert (Z : hypot 0 0 <= 1) by (unfold hypot; rewrite Rmult_0_l, Rplus_0_l, sqrt_0; lra).
    destruct (cc_from_polar (1 / 4) 0 0 0 U Z) as (A & _). rewrite A. f_equal. apply pymod_small. lra.
Qed.

(** ** Positional loc; tolerance *)
Definition car_ok_l (v : list R) : bool := match v with [mu; rho] => car_ok mu rho | _ => false end.
Definition car_pdf_l (v : list R) (x : R) : R := match v with [mu; rho] => car_pdf mu rho x | _ => 0 end.
Lemma positional_loc : call_pdf ["mu"; "rho"] car_ok_l car_pdf_l 0 [0; 1 / 4; PI] [] = Ok (Fin 0) /\
  call_pdf ["mu"; "rho"] car_ok_l car_pdf_l 0 [0; 1 / 4] [] = Ok (Fin (3 / (4 * PI))).
Proof.
  pose proof PI_pos. split.
  - unfold call_pdf, parse_args. cbn [bind existsb map app bind_args kw_has kw_get find List.length firstn nth fst snd]. rewrite wrap_in by lra.
    replace ((0 - PI) / 1) with (- PI) by field. rewrite (proj2 (Rltb_true 0 1)) by lra. rewrite (proj2 (Rleb_false 0 (- PI))) by lra.
    unfold car_ok_l, car_ok. rewrite !(proj2 (Rleb_true _ _)) by lra. reflexivity.
  - rewrite call_default; [|constructor|intros k v []|reflexivity]. f_equal. cbn [car_ok_l car_pdf_l].
    unfold public_pdf. cbv zeta. rewrite wrap_in by lra. unfold car_ok. rewrite !(proj2 (Rleb_true _ _)) by lra. cbn. unfold car_pdf.
    rewrite Rminus_0_r, cos_0. f_equal. field. lra.
Qed.
Lemma small_loc : call_pdf ["mu"; "rho"] car_ok_l car_pdf_l 0 [0; 1 / 4] [("loc", KNum [/ 10 ^ 9])] = call_pdf ["mu"; "rho"] car_ok_l car_pdf_l 0 [0; 1 / 4] [].
Proof.
  rewrite !call_default; try reflexivity.
  - constructor.
  - intros k v [].
  - repeat constructor; intros [].
  - intros k v [[= <- <-]|[]]. left. split; [reflexivity|]. intros x [<-|[]]. rewrite Rminus_0_r, Rabs_R0, Rabs_right by (apply Rle_ge; left; apply Rinv_0_lt_compat; lra).
    rewrite Rmult_0_r, Rplus_0_r. apply Rinv_le_contravar; lra.
Qed.
