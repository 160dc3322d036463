(** Property theorems for the wrapped stable distribution (C67, C124-C130). *)
From Verif Require Import Prelude NpModel NpProofs CircleSpec UtilsModel DescModel IntSpec IntProofs DistModel DistSpec DistProofs Dist4Proofs
  WnModel WsModel WsSpec WsProofs Ws2Proofs Ws3Proofs Ws4Proofs Ws5Proofs Ws6Proofs Ws7Proofs WsEx.

(** ** C67: continuity in alpha *)
(** At alpha = 1 the sign of the phase correction is the opposite of the limit's: between alpha = 1
    and alpha = 1 + 2e-10 the first sine moment jumps from above 1/80 to below 0, although the
    phase of the stable law is continuous there. *)
Theorem C67_refuted : exists d b g a2, ws_ok d 1 b g = true /\ ws_ok d a2 b g = true /\ Rabs (a2 - 1) <= 2 / 10 ^ 10 /\
  (forall f1 f2, (forall x, public_pdf (ws_ok d 1 b g) (ws_pdf d 1 b g) x = Fin (f1 x)) ->
    (forall x, public_pdf (ws_ok d a2 b g) (ws_pdf d a2 b g) x = Fin (f2 x)) ->
    exists A1 B1 A2 B2, trig_moment_of f1 1 A1 B1 /\ trig_moment_of f2 1 A2 B2 /\ B2 < 0 /\ / 80 < B1) /\
  (forall t e, 0 < t -> 0 < e -> exists r, 0 < r /\ forall a, Rabs (a - 1) < r -> Rabs (stable_phase d a b g t - stable_phase d 1 b g t) < e).
Proof.
  exists 0, (1 / 2), 2, (1 + 2 / 10 ^ 10). pose proof PI_RGT_0. split; [apply ws_ok_intro; lra|]. split; [apply ws_ok_intro; lra|].
  split; [replace (1 + 2 / 10 ^ 10 - 1) with (2 / 10 ^ 10) by ring; rewrite Rabs_pos_eq; lra|]. split; [exact ws_jump|].
  intros t e Ht He. apply stable_phase_cont; lra.
Qed.
Print Assumptions C67_refuted.

(** ** C124: total mass and trigonometric moments *)
Theorem C124_moments : forall d a b g f, ws_ok d a b g = true -> / 10 ^ 10 < Rabs (a - 1) \/ b = 0 ->
  (forall x, public_pdf (ws_ok d a b g) (ws_pdf d a b g) x = Fin (f x)) ->
  integral f 0 (2 * PI) 1 /\
  forall n, (1 <= n)%nat -> exists A B, trig_moment_of f (Z.of_nat n) A B /\
    let A' := stable_modulus a g (INR n) * cos (stable_phase d a b g (INR n)) in
    let B' := stable_modulus a g (INR n) * sin (stable_phase d a b g (INR n)) in
    (n = 1%nat -> A = A' /\ B = B') /\
    (12 * ln 10 <= Rpower (g * 20000) a -> Rabs (A - A') <= / 10 ^ 12 /\ Rabs (B - B') <= / 10 ^ 12).
Proof. exact ws_moments_law. Qed.
Print Assumptions C124_moments.
Example C124_example : ws_ok 1 (3 / 2) (1 / 2) 2 = true /\ / 10 ^ 10 < Rabs (3 / 2 - 1) /\ 12 * ln 10 <= Rpower (2 * 20000) (3 / 2) /\
  exists f, forall x, public_pdf (ws_ok 1 (3 / 2) (1 / 2) 2) (ws_pdf 1 (3 / 2) (1 / 2) 2) x = Fin (f x).
Proof. exact (conj ex_ws (conj ex_ws_alpha (conj ex_ws_reach (ex_ws_f _ _ _ _ ex_ws)))). Qed.

(** ** C125: pdf is a probability density *)
(** Missing: alpha < 1 and concentrated laws (exp (- gamma^alpha) > 1/3); the claim fails for some
    of them (next theorem). *)
Theorem C125_partial : forall d a b g, ws_ok d a b g = true -> 1 <= a -> exp (- Rpower g a) <= / 3 ->
  pdf_is_density (public_pdf (ws_ok d a b g) (ws_pdf d a b g)) /\ forall x, 0 < ws_pdf d a b g x.
Proof. exact ws_density. Qed.
Print Assumptions C125_partial.
Theorem C125_refuted : exists d a b g x v, ws_ok d a b g = true /\ public_pdf (ws_ok d a b g) (ws_pdf d a b g) x = Fin v /\ v < 0.
Proof. exact ws_negative. Qed.
Print Assumptions C125_refuted.
Example C125_example : ws_ok 1 (3 / 2) (1 / 2) 2 = true /\ 1 <= 3 / 2 /\ exp (- Rpower 2 (3 / 2)) <= / 3.
Proof. split; [exact ex_ws|split; [lra|exact ex_ws_rho]]. Qed.

(** ** C126: cdf is the integral of pdf and monotone *)
(** Missing: parameters for which the truncated series is negative somewhere (there the claim can
    fail, last theorem); the first 1e-12 and the last 6.3e-5 of the circle, where 0 and 1 are
    returned. *)
Theorem C126_partial : forall d a b g x, ws_ok d a b g = true -> (forall t, 0 <= t <= 2 * PI -> 0 <= ws_pdf d a b g t) ->
  / 10 ^ 12 < x < 2 * PI -> / 10 ^ 12 + / 10 ^ 5 * (2 * PI) < 2 * PI - x ->
  exists u, public_cdf (ws_ok d a b g) (ws_cdf d a b g) x = Fin u /\ integral (ws_pdf d a b g) 0 x u.
Proof. exact ws_cdf_int. Qed.
Print Assumptions C126_partial.
Theorem C126_monotone_partial : forall d a b g x y u v, ws_ok d a b g = true -> (forall t, 0 <= t <= 2 * PI -> 0 <= ws_pdf d a b g t) ->
  0 <= x -> x <= y -> y <= 2 * PI ->
  public_cdf (ws_ok d a b g) (ws_cdf d a b g) x = Fin u -> public_cdf (ws_ok d a b g) (ws_cdf d a b g) y = Fin v -> 0 <= u /\ u <= v /\ v <= 1.
Proof. exact ws_mono. Qed.
Print Assumptions C126_monotone_partial.
Theorem C126_refuted : exists d a b g x y u v, ws_ok d a b g = true /\ 0 < x /\ x < y /\ y < 2 * PI /\
  public_cdf (ws_ok d a b g) (ws_cdf d a b g) x = Fin u /\ public_cdf (ws_ok d a b g) (ws_cdf d a b g) y = Fin v /\ 3 / 4 <= u /\ v = 1 / 2.
Proof. exact ws_not_mono. Qed.
Print Assumptions C126_refuted.
Example C126_example : ws_ok 1 (3 / 2) (1 / 2) 2 = true /\ (forall t, 0 <= t <= 2 * PI -> 0 <= ws_pdf 1 (3 / 2) (1 / 2) 2 t) /\
  / 10 ^ 12 < 3 < 2 * PI /\ / 10 ^ 12 + / 10 ^ 5 * (2 * PI) < 2 * PI - 3.
Proof. pose proof PI_gt3. pose proof PI_4. split; [exact ex_ws|split; [exact ex_ws_pos|lra]]. Qed.

(** ** C127: ppf inverts cdf *)
Theorem C127_inverts : forall d a b g q, ws_ok d a b g = true -> / 10 ^ 12 < q < 1 - / 10 ^ 12 ->
  exists th lo hi u v, public_ppf (ws_ok d a b g) (ws_ppf d a b g) q = Fin th /\ 0 <= lo < th /\ th < hi <= 2 * PI /\ hi - lo <= / 10 ^ 8 /\
    public_cdf (ws_ok d a b g) (ws_cdf d a b g) lo = Fin u /\ public_cdf (ws_ok d a b g) (ws_cdf d a b g) hi = Fin v /\ u <= q < v.
Proof. exact ws_ppf_inverts. Qed.
Print Assumptions C127_inverts.
Theorem C127_root : forall d a b g q w, ws_ok d a b g = true -> (forall t, 0 <= t <= 2 * PI -> 0 <= ws_pdf d a b g t) ->
  / 10 ^ 12 < q < 1 - / 10 ^ 12 -> integral (ws_pdf d a b g) 0 (2 * PI - 7 / 10 ^ 5) w -> q < w ->
  exists th t, public_ppf (ws_ok d a b g) (ws_ppf d a b g) q = Fin th /\ 0 <= t <= 2 * PI /\ Rabs (th - t) <= 2 / 10 ^ 8 /\ integral (ws_pdf d a b g) 0 t q.
Proof. exact ws_ppf_root. Qed.
Print Assumptions C127_root.
Example C127_example : ws_ok 1 (3 / 2) (1 / 2) 2 = true /\ (forall t, 0 <= t <= 2 * PI -> 0 <= ws_pdf 1 (3 / 2) (1 / 2) 2 t) /\
  / 10 ^ 12 < 1 / 2 < 1 - / 10 ^ 12 /\ exists w, integral (ws_pdf 1 (3 / 2) (1 / 2) 2) 0 (2 * PI - 7 / 10 ^ 5) w /\ 1 / 2 < w.
Proof. split; [exact ex_ws|split; [exact ex_ws_pos|split; [lra|exact ex_ws_half]]]. Qed.

(** ** C128: the moment fit matches the sample's first two moments *)
Theorem C128_fit : forall s d a b g f, ws_fit_moments s = Ok (d, a, b, g) ->
  (forall x, public_pdf (ws_ok d a b g) (ws_pdf d a b g) x = Fin (f x)) ->
  let C n := Rsum (map (fun p => snd p * cos (IZR n * fst p)) s) / Rsum (map snd s) in
  let S n := Rsum (map (fun p => snd p * sin (IZR n * fst p)) s) / Rsum (map snd s) in
  ws_ok d a b g = true /\ / 1000 <= a <= 2 /\ - (99 / 100) <= b <= 99 / 100 /\ / 10 ^ 6 <= g <= 10 /\
  ((forall n, n = 1%Z \/ n = 2%Z -> / 10 ^ 9 < sqrt (C n * C n + S n * S n) < 1 - / 10 ^ 6) ->
   / 1000 < a < 2 -> / 10 ^ 6 < g < 10 -> - (99 / 100) < b < 99 / 100 -> b <> 0 ->
   trig_moment_of f 1 (C 1%Z) (S 1%Z) /\ trig_moment_of f 2 (C 2%Z) (S 2%Z)).
Proof. exact ws_fit_spec. Qed.
Print Assumptions C128_fit.
Example C128_example : (exists d a b g, ws_fit_moments wsS = Ok (d, a, b, g) /\ / 1000 < a < 2 /\ / 10 ^ 6 < g < 10 /\ - (99 / 100) < b < 99 / 100 /\ b <> 0) /\
  let C n := Rsum (map (fun p => snd p * cos (IZR n * fst p)) wsS) / Rsum (map snd wsS) in
  let S n := Rsum (map (fun p => snd p * sin (IZR n * fst p)) wsS) / Rsum (map snd wsS) in
  forall n, n = 1%Z \/ n = 2%Z -> / 10 ^ 9 < sqrt (C n * C n + S n * S n) < 1 - / 10 ^ 6.
Proof. exact (conj ex_wsS ex_wsS_r). Qed.

(** ** C129: rotation and reflection *)
Theorem C129_rotation : forall d a b g t x, ws_ok d a b g = true -> ws_ok (d + t) a b g = true ->
  public_pdf (ws_ok (d + t) a b g) (ws_pdf (d + t) a b g) (x + t) = public_pdf (ws_ok d a b g) (ws_pdf d a b g) x.
Proof. exact ws_public_rot. Qed.
Print Assumptions C129_rotation.
Theorem C129_reflection : forall d a b g x, ws_ok d a b g = true ->
  public_pdf (ws_ok (2 * PI - d) a (- b) g) (ws_pdf (2 * PI - d) a (- b) g) (- x) = public_pdf (ws_ok d a b g) (ws_pdf d a b g) x.
Proof. exact ws_public_ref. Qed.
Print Assumptions C129_reflection.
Theorem C129_draws : forall d a b g V W,
  (forall t, ws_rvs (d + t) a b g V W = pymod (ws_rvs d a b g V W + t) (2 * PI)) /\
  ws_rvs (2 * PI - d) a (- b) g (- V) W = pymod (- ws_rvs d a b g V W) (2 * PI).
Proof. intros d a b g V W. split; [intros t; apply ws_rvs_rot|apply ws_rvs_ref]. Qed.
Print Assumptions C129_draws.
Example C129_example : ws_ok 1 (3 / 2) (1 / 2) 2 = true /\ ws_ok (1 + 2) (3 / 2) (1 / 2) 2 = true.
Proof. pose proof PI_gt3. split; [exact ex_ws|apply ws_ok_intro; lra]. Qed.

(** ** C130: special cases *)
Theorem C130_cauchy : forall d g x u v, ws_ok d 1 0 g = true -> 12 * ln 10 <= g * 20000 ->
  public_pdf (ws_ok d 1 0 g) (ws_pdf d 1 0 g) x = Fin u -> public_pdf (wc_ok d (exp (- g))) (wc_pdf d (exp (- g))) x = Fin v ->
  Rabs (u - v) <= / 10 ^ 12 / (PI * (1 - exp (- g))).
Proof. exact ws_cauchy. Qed.
Print Assumptions C130_cauchy.
Theorem C130_normal : forall d b g x u v, ws_ok d 2 b g = true -> 12 * ln 10 <= (g * 20000) ^ 2 ->
  public_pdf (ws_ok d 2 b g) (ws_pdf d 2 b g) x = Fin u -> public_pdf (wn_ok d (exp (- g ^ 2))) (wn_pdf d (exp (- g ^ 2))) x = Fin v ->
  Rabs (u - v) <= (/ 10 ^ 12 + exp (- g ^ 2) ^ 900) / (PI * (1 - exp (- g ^ 2))).
Proof. exact ws_normal. Qed.
Print Assumptions C130_normal.
(** The draws in the three cases where the stable law has an elementary generator: alpha = 2 is the
    Box-Muller normal with variance 2 gamma^2, alpha = 1 the Cauchy quantile, alpha = 1/2 with any
    skewness. *)
Theorem C130_draws : forall d b g V W, - 1 < b < 1 -> - (PI / 2) < V < PI / 2 -> 0 < W ->
  ws_rvs d 2 b g V W = pymod (d + 2 * g * sqrt W * sin V) (2 * PI) /\
  ws_rvs d 1 0 g V W = pymod (d + g * tan V) (2 * PI) /\
  ws_rvs d (1 / 2) b g V W = pymod (d + g * ((1 + b ^ 2) / 2 * sin V + b) / (W * cos V ^ 2)) (2 * PI).
Proof.
  intros d b g V W Hb HV HW. unfold ws_rvs. rewrite ws_draw_gauss, ws_draw_cauchy, ws_draw_half by assumption.
  repeat split; reflexivity.
Qed.
Print Assumptions C130_draws.
Example C130_example : (ws_ok 1 1 0 (1 / 2) = true /\ 12 * ln 10 <= 1 / 2 * 20000) /\ (ws_ok 1 2 (1 / 3) (1 / 2) = true /\ 12 * ln 10 <= (1 / 2 * 20000) ^ 2) /\
  exists u v, public_pdf (wc_ok 1 (exp (- (1 / 2)))) (wc_pdf 1 (exp (- (1 / 2)))) 2 = Fin u /\ public_pdf (wn_ok 1 (exp (- (1 / 2) ^ 2))) (wn_pdf 1 (exp (- (1 / 2) ^ 2))) 2 = Fin v.
Proof. exact (conj ex_ws_cauchy (conj ex_ws_normal ex_ws_others)). Qed.
