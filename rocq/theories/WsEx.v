(** Concrete cases for the wrapstable theorems. *)
From Verif Require Import Prelude NpModel NpProofs UtilsModel UtilsProofs DescModel DescProofs CircleSpec IntSpec IntProofs DistModel DistSpec DistProofs Dist2Proofs Dist4Proofs Dist5Proofs
  Dist6Proofs Dist7Proofs Dist8Proofs KjProofs Kj2Proofs Kj6Proofs Kj7Proofs Von5Proofs Von6Proofs WnModel WnProofs GaussProofs Wn3Proofs Wn5Proofs WsModel WsSpec WsProofs Ws2Proofs Ws3Proofs Ws4Proofs Ws5Proofs Ws6Proofs.

Lemma ex_ws : ws_ok 1 (3 / 2) (1 / 2) 2 = true.
Proof. pose proof PI_gt3. apply ws_ok_intro; lra. Qed.
Lemma ex_ws_alpha : / 10 ^ 10 < Rabs (3 / 2 - 1).
Proof. replace (3 / 2 - 1) with (/ 2) by field. rewrite Rabs_pos_eq; lra. Qed.
Lemma ex_ws_f d a b g : ws_ok d a b g = true -> exists f, forall x, public_pdf (ws_ok d a b g) (ws_pdf d a b g) x = Fin (f x).
Proof. intros H. exists (ws_pdf d a b g). intros x. apply ws_pub, H. Qed.
Lemma ex_ws_reach : 12 * ln 10 <= Rpower (2 * 20000) (3 / 2).
Proof.
  pose proof ln10_le. apply Rle_trans with (Rpower (2 * 20000) 1); [rewrite Rpower_1 by lra; lra|]. apply Rle_Rpower; lra.
Qed.
Lemma ex_ws_rho : exp (- Rpower 2 (3 / 2)) <= / 3.
Proof.
  assert (2 <= Rpower 2 (3 / 2)). { rewrite <- (Rpower_1 2) at 1 by lra. apply Rle_Rpower; lra. }
  rewrite exp_Ropp. apply Rinv_le_contravar; [lra|]. pose proof (exp_ge1 (Rpower 2 (3 / 2))). lra.
Qed.
Lemma ex_ws_pos : forall t, 0 <= t <= 2 * PI -> 0 <= ws_pdf 1 (3 / 2) (1 / 2) 2 t.
Proof. intros t _. apply Rlt_le. apply (proj2 (ws_density 1 (3 / 2) (1 / 2) 2 ex_ws ltac:(lra) ex_ws_rho)). Qed.
Lemma ex_ws_half : exists w, integral (ws_pdf 1 (3 / 2) (1 / 2) 2) 0 (2 * PI - 7 / 10 ^ 5) w /\ 1 / 2 < w.
Proof.
  pose proof PI_gt3 as P3. pose proof PI_4 as P4. pose proof (ws_int 1 (3 / 2) (1 / 2) 2 0 (2 * PI - 7 / 10 ^ 5) ltac:(lra)) as I. rewrite ws_raw_0, Rminus_0_r in I.
  eexists. split; [exact I|]. set (e := 2 * PI - 7 / 10 ^ 5) in *.
  (* pdf is below 2 / 3, so the rest has mass at most 5e-5 *)
  pose proof (ws_int 1 (3 / 2) (1 / 2) 2 e (2 * PI) ltac:(unfold e; lra)) as J. rewrite ws_raw_2pi in J.
  assert (B : forall x, e <= x <= 2 * PI -> ws_pdf 1 (3 / 2) (1 / 2) 2 x <= 1).
  { intros x _. rewrite ws_pdf_eq. unfold spoly. set (P := ws_order (3 / 2) 2).
    pose proof (Rsum_abs_cos (ws_rho (3 / 2) 2) (ws_mu 1 (3 / 2) (1 / 2) 2) x P (fun p => Rlt_le _ _ (ws_rho_pos (3 / 2) 2 p))) as A.
    assert (G : Rsum (map (ws_rho (3 / 2) 2) (seq 1 P)) <= / 2 * (1 - (/ 3) ^ P)).
    { apply geo_third. intros p Hp. eapply Rle_trans; [apply ws_rho_geo; try lra; exact Hp|]. apply pow_incr. split; [apply Rlt_le, ws_rho_pos|].
      unfold ws_rho. change (INR 1) with 1. rewrite Rmult_1_r. apply ex_ws_rho. }
    assert (0 < (/ 3) ^ P) by (apply pow_lt; lra). apply abs_le_inv in A. apply (Rmult_le_reg_r (2 * PI)); [lra|].
    match goal with |- (1 + 2 * ?z) / _ * _ <= _ => replace ((1 + 2 * z) / (2 * PI) * (2 * PI)) with (1 + 2 * z) by (field; lra) end. lra. }
  assert (Le : e <= 2 * PI) by (unfold e; lra). pose proof (integral_le _ (fun _ => 1) e (2 * PI) _ _ Le B J (integral_const e (2 * PI) 1)) as K. unfold e in *. lra.
Qed.
Lemma ex_ws_cauchy : ws_ok 1 1 0 (1 / 2) = true /\ 12 * ln 10 <= 1 / 2 * 20000.
Proof. pose proof PI_gt3. pose proof ln10_le. split; [apply ws_ok_intro; lra|lra]. Qed.
Lemma ex_ws_normal : ws_ok 1 2 (1 / 3) (1 / 2) = true /\ 12 * ln 10 <= (1 / 2 * 20000) ^ 2.
Proof. pose proof PI_gt3. pose proof ln10_le. split; [apply ws_ok_intro; lra|lra]. Qed.

(** ** A sample whose moments are matched *)
Definition wsS : wsample := [(0, 55); (PI / 2, 21); (PI, 5); (3 * (PI / 2), 19)].
Lemma wsS_moms : let C n := Rsum (map (fun p => snd p * cos (IZR n * fst p)) wsS) / Rsum (map snd wsS) in
  let S n := Rsum (map (fun p => snd p * sin (IZR n * fst p)) wsS) / Rsum (map snd wsS) in
  C 1%Z = 1 / 2 /\ S 1%Z = 1 / 50 /\ C 2%Z = 1 / 5 /\ S 2%Z = 0.
Proof.
  cbv zeta. unfold wsS. cbn [map fst snd]. unfold Rsum. cbn [fold_right]. rewrite !Rmult_1_l, !Rmult_0_r.
  replace (2 * (PI / 2)) with PI by field. replace (2 * (3 * (PI / 2))) with (PI + 2 * PI) by field.
  rewrite cos_0, sin_0, cos_PI2, sin_PI2, cos_PI, sin_PI, cos_3PI2, sin_3PI2, cos_2PI, sin_2PI.
  replace (PI + 2 * PI) with (2 * PI + PI) by ring. rewrite neg_cos, neg_sin, cos_2PI, sin_2PI. repeat split; field.
Qed.
Lemma ln_lo x : 0 < x -> 1 - / x <= ln x.
Proof. intros H. pose proof (exp_ge1 (- ln x)) as E. rewrite exp_Ropp, exp_ln in E by exact H. lra. Qed.
Definition r1S : R := hypot (1 / 2) (1 / 50).
Lemma r1S_sq : r1S ^ 2 = 313 / 1250.
Proof. unfold r1S, hypot. replace (sqrt (1 / 2 * (1 / 2) + 1 / 50 * (1 / 50)) ^ 2) with (sqrt (1 / 2 * (1 / 2) + 1 / 50 * (1 / 50)) * sqrt (1 / 2 * (1 / 2) + 1 / 50 * (1 / 50))) by ring. rewrite sqrt_sqrt by lra. field. Qed.
Lemma r1S_pos : 1 / 2 <= r1S <= 51 / 100.
Proof. pose proof r1S_sq as E. assert (0 <= r1S) by apply sqrt_pos. split; nra. Qed.
Lemma r2S : hypot (1 / 5) 0 = 1 / 5.
Proof. unfold hypot. replace (1 / 5 * (1 / 5) + 0 * 0) with (1 / 5 * (1 / 5)) by ring. apply sqrt_square. lra. Qed.
Lemma ex_ws_fit : exists d a b g, ws_moments (1 / 2) (1 / 50) (1 / 5) 0 = (d, a, b, g) /\ / 1000 < a < 2 /\ / 10 ^ 6 < g < 10 /\ - (99 / 100) < b < 99 / 100 /\ b <> 0.
Proof.
  pose proof PI_gt3 as P3. pose proof PI_4 as P4. pose proof r1S_pos as [R1 R2]. pose proof r1S_sq as Rq. pose proof ln2_range as L2.
  unfold ws_moments. cbv zeta. fold r1S. rewrite r2S. rewrite !clip_in by lra. rewrite !(proj2 (Rleb_false (1 - / 10 ^ 6) _)) by lra. cbn [orb].
  set (u1 := - ln r1S). set (u2 := - ln (1 / 5)).
  assert (U1 : 0 < u1). { unfold u1. assert (ln r1S < ln 1) by (apply ln_increasing; lra). rewrite ln_1 in H. lra. }
  assert (U1' : u1 <= 1). { unfold u1. pose proof (ln_lo r1S ltac:(lra)). assert (/ r1S <= / (1 / 2)) by (apply Rinv_le_contravar; lra). lra. }
  assert (U1'' : / 3 <= u1). { unfold u1. pose proof (ln_lo (/ r1S) ltac:(apply Rinv_0_lt_compat; lra)) as K. rewrite ln_Rinv, Rinv_inv in K by lra. lra. }
  assert (E12 : ln (313 / 1250) = - 2 * u1). { rewrite <- Rq, ln_pow by lra. unfold u1. simpl. ring. }
  (* 2.2 u1 <= u2 <= 2.8 u1 *)
  assert (Q1 : 22 / 10 * u1 <= u2).
  { assert (ln ((1 / 5) ^ 10) <= ln ((313 / 1250) ^ 11)) as K by (apply ln_le_mono; [apply pow_lt; lra|lra]).
    rewrite !ln_pow, E12 in K by lra. fold u2. assert (ln (1 / 5) = - u2) as Z by (unfold u2; ring). rewrite Z in K. simpl in K. lra. }
  assert (Q2 : u2 <= 28 / 10 * u1).
  { assert (ln ((313 / 1250) ^ 7) <= ln ((1 / 5) ^ 5)) as K by (apply ln_le_mono; [apply pow_lt; lra|lra]).
    rewrite !ln_pow, E12 in K by lra. assert (ln (1 / 5) = - u2) as Z by (unfold u2; ring). rewrite Z in K. simpl in K. lra. }
  assert (Q3 : / 5 <= u2 - 2 * u1).
  { assert (u2 - 2 * u1 = ln (313 / 250)) as ->. { replace (313 / 250) with (313 / 1250 * / (1 / 5)) by field. rewrite ln_mult by lra. rewrite ln_Rinv, E12 by lra. unfold u2. ring. }
    pose proof (ln_lo (313 / 250) ltac:(lra)). lra. }
  set (y1 := ln u1). set (y2 := ln u2).
  assert (Y : y2 - y1 = ln (u2 / u1)). { unfold y1, y2, Rdiv. rewrite ln_mult, ln_Rinv by (try apply Rinv_0_lt_compat; lra). ring. }
  set (rt := u2 / u1) in *.
  assert (Rt : 22 / 10 <= rt <= 28 / 10). { unfold rt. split; [apply (Rmult_le_reg_r u1); [lra|]; replace (u2 / u1 * u1) with u2 by (field; lra); lra|].
    apply (Rmult_le_reg_r u1); [lra|]; replace (u2 / u1 * u1) with u2 by (field; lra); lra. }
  set (a := (y2 - y1) / ln 2).
  assert (Ea : a * ln 2 = ln rt). { unfold a. rewrite Y. field. lra. }
  assert (A1 : ln 2 + / 20 <= ln rt). { assert (ln rt = ln 2 + ln (rt / 2)) as ->. { rewrite <- ln_mult by lra. f_equal. field. }
    pose proof (ln_lo (rt / 2) ltac:(lra)). assert (/ (rt / 2) <= / (22 / 10 / 2)) by (apply Rinv_le_contravar; lra). lra. }
  assert (A2 : 2 * ln rt <= 3 * ln 2). { replace (2 * ln rt) with (ln (rt ^ 2)) by (rewrite ln_pow by lra; simpl; ring). replace (3 * ln 2) with (ln (2 ^ 3)) by (rewrite ln_pow by lra; simpl; ring).
    apply ln_le_mono; nra. }
  assert (Ha : 1 + / 20 <= a <= 3 / 2) by (split; nra).
  rewrite (clip_in a) by lra.
  assert (Hy : - 2 <= y1 <= 0). { unfold y1. split; [pose proof (ln_lo u1 U1); assert (/ u1 <= / / 3) by (apply Rinv_le_contravar; lra); lra|]. rewrite <- ln_1. apply ln_le_mono; lra. }
  assert (Hya : - 2 <= y1 / a <= 0). { split; apply (Rmult_le_reg_r a); try lra; replace (y1 / a * a) with y1 by (field; lra); nra. }
  set (g0 := exp (y1 / a)). assert (Hg : / 9 <= g0 <= 1).
  { unfold g0. split; [|rewrite <- exp_0; apply expm_le; lra]. apply Rle_trans with (exp (- (1 + 1))); [|apply expm_le; lra]. rewrite exp_Ropp. apply Rinv_le_contravar; [apply exp_pos|].
    rewrite exp_plus. pose proof exp_le_3. pose proof (exp_pos 1). nra. }
  rewrite (clip_in g0) by lra. rewrite (proj2 (Rleb_false (Rabs (a - 1)) ws_atol)) by (unfold ws_atol; rewrite Rabs_pos_eq by lra; lra).
  (* angles *)
  assert (Phi2 : arctan2 0 (1 / 5) = 0). { unfold arctan2. rewrite (proj2 (Rltb_true 0 (1 / 5))) by lra. unfold Rdiv. rewrite Rmult_0_l. apply atan_0. }
  rewrite Phi2. set (phi1 := arctan2 (1 / 50) (1 / 2)).
  assert (Hphi : 0 < phi1 <= / 25).
  { unfold phi1, arctan2. rewrite (proj2 (Rltb_true 0 (1 / 2))) by lra. replace (1 / 50 / (1 / 2)) with (/ 25) by field. split; [rewrite <- atan_0; apply atan_increasing; lra|].
    pose proof (atan_bound (/ 25)) as AB. assert (AL : 0 < atan (/ 25)) by (rewrite <- atan_0; apply atan_increasing; lra).
    destruct (Rle_lt_dec (atan (/ 25)) (/ 25)) as [K|K]; [exact K|exfalso]. 
    assert (T : tan (atan (/ 25)) = / 25) by apply tan_atan. pose proof (tan_increasing (/ 25) (atan (/ 25)) ltac:(lra) K ltac:(lra)) as TI. rewrite T in TI.
    assert (/ 25 <= tan (/ 25)); [|lra]. unfold tan. pose proof (sin_lt_x) as SL. 
    apply (Rmult_le_reg_r (cos (/ 25))); [apply cos_gt_0; lra|]. replace (sin (/ 25) / cos (/ 25) * cos (/ 25)) with (sin (/ 25)) by (field; apply Rgt_not_eq, cos_gt_0; lra).
    pose proof (mono_of_dlim (fun x => sin x - x * cos x) (fun x => x * sin x) 0 1) as M. cbv beta in M.
    assert (Z : sin 0 - 0 * cos 0 <= sin (/ 25) - / 25 * cos (/ 25)).
    { apply M; try lra.
      - intros x _. eapply dlim_eq; [|apply dlim_minus; [apply dlim_sin, dlim_id|apply dlim_mult; [apply dlim_id|apply dlim_cos, dlim_id]]]. cbv beta. ring.
      - intros x Hx. apply Rmult_le_pos; [lra|]. apply sin_ge_0; lra. }
    rewrite sin_0 in Z. lra. }
  assert (Er : rint ((2 * phi1 - 0) / (2 * PI)) = 0%Z).
  { assert (Z0 : 0 <= (2 * phi1 - 0) / (2 * PI) <= / 25).
    { split; apply (Rmult_le_reg_r (2 * PI)); try lra; replace ((2 * phi1 - 0) / (2 * PI) * (2 * PI)) with (2 * phi1) by (field; lra); lra. }
    unfold rint. rewrite (Rfloor_unique _ 0) by lra. cbv zeta. rewrite (proj2 (Rltb_true _ (1 / 2))) by lra. reflexivity. }
  rewrite Er. rewrite Rmult_0_r, Rplus_0_r.
  set (A := tan (1 / 2 * PI * a)).
  assert (HA : A <= - 1).
  { unfold A. set (h := PI * (a - 1) / 2). replace (1 / 2 * PI * a) with (PI / 2 + h) by (unfold h; field). assert (Hh : 0 < h <= PI / 4) by (unfold h; nra). rewrite tan_shift by lra.
    assert (S0 : 0 < sin h) by (apply sin_gt_0; lra). assert (SC : sin h <= cos h).
    { apply Rle_trans with (sin (PI / 4)); [apply sin_incr_1; lra|]. rewrite sin_cos_PI4. apply cos_decr_1; lra. }
    assert (1 <= cos h / sin h); [|lra]. apply (Rmult_le_reg_r (sin h)); [exact S0|]. replace (cos h / sin h * sin h) with (cos h) by (field; lra). lra. }
  set (den := A * _).
  assert (Hden : den <= - / 5).
  { unfold den. assert (G1 : Rpower g0 a = u1). { unfold Rpower, g0. rewrite ln_exp. replace (a * (y1 / a)) with y1 by (field; lra). apply exp_ln. lra. }
    assert (G2 : Rpower (g0 * 2) a = u2).
    { unfold Rpower. rewrite ln_mult by lra. unfold g0. rewrite ln_exp. replace (a * (y1 / a + ln 2)) with (y1 + a * ln 2) by (field; lra). rewrite Ea, <- Y.
      replace (y1 + (y2 - y1)) with y2 by ring. apply exp_ln. lra. }
    rewrite G1, G2. nra. }
  rewrite (proj2 (Rltb_false (Rabs den) (/ 10 ^ 8))) by (rewrite Rabs_left by lra; lra).
  assert (Hb : 0 < (0 - 2 * phi1) / den <= 4 / 10).
  { replace ((0 - 2 * phi1) / den) with (2 * phi1 / (- den)) by (field; lra). split; [apply Rdiv_lt_0_compat; lra|].
    apply (Rmult_le_reg_r (- den)); [lra|]. replace (2 * phi1 / - den * - den) with (2 * phi1) by (field; lra). lra. }
  rewrite clip_in by lra. do 4 eexists. split; [reflexivity|]. lra.
Qed.
Lemma ex_wsS : exists d a b g, ws_fit_moments wsS = Ok (d, a, b, g) /\ / 1000 < a < 2 /\ / 10 ^ 6 < g < 10 /\ - (99 / 100) < b < 99 / 100 /\ b <> 0.
Proof.
  pose proof PI_gt3 as P3. destruct ex_ws_fit as (d & a & b & g & E & H). exists d, a, b, g. split; [|exact H]. rewrite <- E.
  destruct wsS_moms as (M1 & M2 & M3 & M4). unfold ws_fit_moments. unfold wsS at 1. fold wsS.
  assert (Ex : existsb (fun p : R * R => Rltb (snd p) 0) wsS = false). { unfold wsS. cbn [existsb snd]. rewrite !(proj2 (Rltb_false _ 0)) by lra. reflexivity. }
  assert (Wt : wtotal wsS = 100) by (unfold wtotal, wsS, Rsum; cbn; ring). change (Rsum (map snd wsS)) with (wtotal wsS) in *.
  assert (Wm : map (fun p : R * R => (wrap_angles (fst p), snd p)) wsS = wsS). { unfold wsS. cbn [map fst snd]. rewrite !wrap_in by lra. reflexivity. }
  rewrite Ex, Wm. rewrite (proj2 (Rleb_false _ 0)) by (rewrite Wt; lra). cbv zeta. f_equal. f_equal; assumption.
Qed.
Lemma ex_wsS_r : let C n := Rsum (map (fun p => snd p * cos (IZR n * fst p)) wsS) / Rsum (map snd wsS) in
  let S n := Rsum (map (fun p => snd p * sin (IZR n * fst p)) wsS) / Rsum (map snd wsS) in
  forall n, n = 1%Z \/ n = 2%Z -> / 10 ^ 9 < sqrt (C n * C n + S n * S n) < 1 - / 10 ^ 6.
Proof.
  destruct wsS_moms as (M1 & M2 & M3 & M4). cbv zeta in *. intros n [-> | ->].
  - rewrite M1, M2. pose proof r1S_pos. unfold r1S, hypot in H. lra.
  - rewrite M3, M4. pose proof r2S as E. unfold hypot in E. rewrite E. lra.
Qed.
Lemma ex_ws_others : exists u v, public_pdf (wc_ok 1 (exp (- (1 / 2)))) (wc_pdf 1 (exp (- (1 / 2)))) 2 = Fin u /\
  public_pdf (wn_ok 1 (exp (- (1 / 2) ^ 2))) (wn_pdf 1 (exp (- (1 / 2) ^ 2))) 2 = Fin v.
Proof.
  pose proof PI_gt3 as P3.
  assert (forall z, 0 < z -> 0 < exp (- z) < 1) as B. { intros z Hz. split; [apply exp_pos|]. rewrite <- exp_0. apply exp_increasing. lra. }
  pose proof (B (1 / 2) ltac:(lra)). pose proof (B ((1 / 2) ^ 2) ltac:(lra)).
  assert (wc_ok 1 (exp (- (1 / 2))) = true) as ->. { unfold wc_ok. rewrite !(proj2 (Rleb_true _ _)), !(proj2 (Rltb_true _ _)) by lra. reflexivity. }
  assert (wn_ok 1 (exp (- (1 / 2) ^ 2)) = true) as ->. { unfold wn_ok. rewrite !(proj2 (Rleb_true _ _)), !(proj2 (Rltb_true _ _)) by lra. reflexivity. }
  rewrite !public_pdf_fin. do 2 eexists. split; reflexivity.
Qed.
