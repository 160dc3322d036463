(** Property theorems for the wrapped normal distribution (C60, C119-C123). *)
From Verif Require Import Prelude NpModel NpProofs CircleSpec UtilsModel DescModel IntSpec IntProofs DistModel DistSpec DistProofs
  WnModel WnSpec WnProofs GaussProofs Wn2Proofs Wn5Proofs Wn6Proofs Wn7Proofs Wn8Proofs WnEx.

(** ** C60: pdf is non-negative *)
(** Missing: rho above 0.94, where the claim fails (next theorem). *)
Theorem C60_partial : forall mu rho, wn_ok mu rho = true -> rho <= 94 / 100 ->
  pdf_is_density (public_pdf (wn_ok mu rho) (wn_pdf mu rho)) /\ forall x, 0 < wn_pdf mu rho x.
Proof.
  intros mu rho H L. split; [exact (wn_density mu rho H L)|]. intros x. apply wn_ok_spec in H as [Hm Hr]. apply wn_pos; lra.
Qed.
Print Assumptions C60_partial.
(** rho = 1 - 1/2000: negative opposite the mean direction. *)
Theorem C60_refuted : exists mu rho x v, wn_ok mu rho = true /\ public_pdf (wn_ok mu rho) (wn_pdf mu rho) x = Fin v /\ v < 0.
Proof. exact ex_wn_negative. Qed.
Print Assumptions C60_refuted.
Example C60_example : wn_ok (PI / 3) (9 / 10) = true /\ 9 / 10 <= 94 / 100.
Proof. split; [exact ex_wn|lra]. Qed.

(** ** C119: cdf is monotone with values in [0, 1] *)
Theorem C119_monotone : forall ndtr mu rho a b u v, (forall x y, x <= y -> ndtr x <= ndtr y) -> wn_ok mu rho = true ->
  0 <= a -> a <= b -> b <= 2 * PI ->
  public_cdf (wn_ok mu rho) (wn_cdf ndtr mu rho) a = Fin u -> public_cdf (wn_ok mu rho) (wn_cdf ndtr mu rho) b = Fin v ->
  0 <= u /\ u <= v /\ v <= 1.
Proof. exact wn_public_mono. Qed.
Print Assumptions C119_monotone.
Example C119_example : exists ndtr u v, (forall x y, x <= y -> ndtr x <= ndtr y) /\ wn_ok (PI / 3) (9 / 10) = true /\
  public_cdf (wn_ok (PI / 3) (9 / 10)) (wn_cdf ndtr (PI / 3) (9 / 10)) 1 = Fin u /\ public_cdf (wn_ok (PI / 3) (9 / 10)) (wn_cdf ndtr (PI / 3) (9 / 10)) 2 = Fin v.
Proof.
  destruct ndtr_exists as [P H]. exists P. rewrite ex_wn, !public_cdf_fin. eexists. eexists. split; [exact (nd_mono P H)|]. repeat split.
Qed.

(** ** C120: trigonometric moments and the moment fit *)
Theorem C120_moments : forall mu rho f (n : nat), (1 <= n)%nat -> wn_ok mu rho = true ->
  (forall x, public_pdf (wn_ok mu rho) (wn_pdf mu rho) x = Fin (f x)) ->
  let r := if Nat.leb n 29 then rho ^ (n ^ 2) else 0 in
  trig_moment_of f (Z.of_nat n) (r * cos (INR n * mu)) (r * sin (INR n * mu)).
Proof. exact wn_moments. Qed.
Print Assumptions C120_moments.
Theorem C120_fit : forall s mu rho, wn_fit_moments s = Ok (mu, rho) ->
  let C := Rsum (map (fun p => snd p * cos (fst p)) s) / Rsum (map snd s) in
  let S := Rsum (map (fun p => snd p * sin (fst p)) s) / Rsum (map snd s) in
  wn_ok mu rho = true /\ rho = Rmin (Rmax (sqrt (C ^ 2 + S ^ 2)) (/ 10 ^ 9)) (1 - / 10 ^ 9) /\
  (/ 10 ^ 9 <= sqrt (C ^ 2 + S ^ 2) <= 1 - / 10 ^ 9 -> rho * cos mu = C /\ rho * sin mu = S).
Proof. exact wn_fit_spec. Qed.
Print Assumptions C120_fit.
Example C120_example : (exists f, forall x, public_pdf (wn_ok (PI / 3) (9 / 10)) (wn_pdf (PI / 3) (9 / 10)) x = Fin (f x)) /\
  (exists mu rho, wn_fit_moments [(0, 1); (PI / 2, 3)] = Ok (mu, rho)) /\
  let s := [(0, 1); (PI / 2, 3)] in
  let C := Rsum (map (fun p => snd p * cos (fst p)) s) / Rsum (map snd s) in
  let S := Rsum (map (fun p => snd p * sin (fst p)) s) / Rsum (map snd s) in / 10 ^ 9 <= sqrt (C ^ 2 + S ^ 2) <= 1 - / 10 ^ 9.
Proof. exact (conj ex_wn_f (conj ex_wn_fit ex_wn_fit_len)). Qed.

(** ** C121: accuracy of cdf *)
(** Missing: angles that np.isclose takes for 2 pi (the last 6.3e-5), where 1 is returned; rho
    within 1e-15 of 1; and for rho near 1 the bound is that of the truncated series in pdf. *)
Theorem C121_partial : forall ndtr mu rho x v, is_ndtr ndtr -> wn_ok mu rho = true -> rho <= 1 - / 10 ^ 15 ->
  0 < x < 2 * PI -> isclose x (2 * PI) = false -> integral (wn_pdf mu rho) 0 x v ->
  exists u, public_cdf (wn_ok mu rho) (wn_cdf ndtr mu rho) x = Fin u /\
    Rabs (u - v) <= / 10 ^ 12 + rho ^ 900 / (45 * (1 - rho)) /\ (rho <= 24 / 25 -> Rabs (u - v) <= 2 / 10 ^ 12).
Proof. exact wn_cdf_acc. Qed.
Print Assumptions C121_partial.
(** cdf is not the distribution function of pdf for any rho up to 0.94. *)
Theorem C121_refuted : forall ndtr mu rho, wn_ok mu rho = true -> rho <= 94 / 100 ->
  ~ describes (public_pdf (wn_ok mu rho) (wn_pdf mu rho)) (public_cdf (wn_ok mu rho) (wn_cdf ndtr mu rho)).
Proof. exact wn_not_describes. Qed.
Print Assumptions C121_refuted.
Example C121_example : exists ndtr v, is_ndtr ndtr /\ wn_ok (PI / 3) (9 / 10) = true /\ isclose 1 (2 * PI) = false /\
  integral (wn_pdf (PI / 3) (9 / 10)) 0 1 v.
Proof. destruct ndtr_exists as [P H]. destruct ex_wn_int as [v I]. exists P, v. exact (conj H (conj ex_wn (conj ex_wn_window I))). Qed.

(** ** C122: the quantile function *)
(** Missing: rho above 0.96; close to one the claim fails (next theorem). *)
Theorem C122_partial : forall ndtr ndtri mu rho q, is_ndtr ndtr -> wn_ok mu rho = true -> rho <= 24 / 25 -> 0 < q < 1 ->
  let th := wn_ppf ndtr ndtri mu rho q in
  0 <= th < 2 * PI /\ exists th' w, 0 <= th' <= 2 * PI /\ Rabs (th - th') <= / 10 ^ 11 /\
    integral (wn_pdf mu rho) 0 th' w /\ Rabs (w - q) <= 3 / 10 ^ 12.
Proof. exact wn_ppf_acc. Qed.
Print Assumptions C122_partial.
(** For a concentrated law every angle near the quantile misses the level under pdf by more than 0.3. *)
Theorem C122_refuted : exists mu rho q, wn_ok mu rho = true /\ 0 < q < 1 /\ forall ndtr ndtri th' w, is_ndtr ndtr ->
  Rabs (wn_ppf ndtr ndtri mu rho q - th') <= / 10 ^ 11 -> integral (wn_pdf mu rho) 0 th' w -> 3 / 10 < q - w.
Proof. exact wn_ppf_wrong. Qed.
Print Assumptions C122_refuted.
Example C122_example : exists ndtr, is_ndtr ndtr /\ wn_ok (PI / 3) (9 / 10) = true /\ 9 / 10 <= 24 / 25.
Proof. destruct ndtr_exists as [P H]. exists P. split; [exact H|]. split; [exact ex_wn|lra]. Qed.

(** ** C123: law of rvs *)
(** A draw is at most x exactly when the normal variate mu + sigma z falls into a copy of [0, x];
    the probabilities of these copies add up to the integral of pdf over [0, x], but for the
    truncation of the series in pdf.  Missing: rho up to 1e-12, where draws are uniform. *)
Theorem C123_law : forall ndtr mu rho x v, is_ndtr ndtr -> wn_ok mu rho = true -> / 10 ^ 12 < rho <= 1 - / 10 ^ 15 ->
  0 <= x < 2 * PI -> integral (wn_pdf mu rho) 0 x v ->
  (forall u z, 0 <= wn_rvs mu rho u z < 2 * PI /\
    (wn_rvs mu rho u z <= x <-> exists k : Z, 2 * PI * IZR k <= pymod mu (2 * PI) + wn_sigma rho * z <= 2 * PI * IZR k + x)) /\
  exists P, Un_cv (turn_mass (fun y => ndtr ((y - pymod mu (2 * PI)) * (1 / wn_sigma rho))) x) P /\
    Rabs (P - v) <= rho ^ 900 / (45 * (1 - rho)).
Proof. exact wn_rvs_law. Qed.
Print Assumptions C123_law.
Theorem C123_uniform : forall mu rho u z v, 0 < rho <= / 10 ^ 12 -> 0 <= u < 1 ->
  wn_rvs mu rho u z = 2 * PI * u /\ (integral (wn_pdf mu rho) 0 (2 * PI * u) v -> Rabs (u - v) <= / 10 ^ 12).
Proof. exact wn_rvs_uniform. Qed.
Print Assumptions C123_uniform.
Example C123_example : exists ndtr v, is_ndtr ndtr /\ wn_ok (PI / 3) (9 / 10) = true /\ integral (wn_pdf (PI / 3) (9 / 10)) 0 1 v.
Proof. destruct ndtr_exists as [P H]. destruct ex_wn_int as [v I]. exists P, v. exact (conj H (conj ex_wn I)). Qed.
