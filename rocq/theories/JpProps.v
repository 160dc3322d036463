(** Property theorems for the Jones-Pewsey family (C68, C131-C139). *)
From Verif Require Import Prelude NpModel NpProofs UtilsModel DescModel DescProofs Desc2Model CircleSpec IntSpec IntProofs DistModel DistSpec DistProofs Dist2Proofs Dist4Proofs Dist5Proofs
  VonModel VonSpec VonProofs JpModel JpSpec JpProofs Jp2Proofs Jp3Proofs Jp4Proofs Jp5Proofs Jp6Proofs Jp7Proofs Jp8Proofs JpEx.

(** ** C68: the sine-skewed cdf *)
(** Missing: monotonicity for general psi (the truncated series need not be non-negative). *)
Theorem C68_starts_partial : forall iv num lpmv quad xi kappa psi lam, ss_ok xi kappa psi lam = true -> jp_ktol <= kappa ->
  jp_ptol <= Rabs psi \/ / 10 ^ 12 <= Rabs lam ->
  forall x, 0 < x < 2 * PI -> 0 <= ss_cdf iv num lpmv quad xi kappa psi lam x <= 1026 / (2 * PI) * x.
Proof. exact ss_starts. Qed.
Print Assumptions C68_starts_partial.
Theorem C68_series_partial : forall iv num lpmv quad xi kappa psi lam, jp_ktol <= kappa -> jp_ptol <= Rabs psi \/ / 10 ^ 12 <= Rabs lam ->
  exists a N, (N <= 256)%nat /\
    (forall n, a n = clip (riemann_turn (fun t => cos (INR n * t) * jp_pdf iv lpmv quad 0 kappa psi t)) (- 1) 1) /\
    forall x v, 0 < x < 2 * PI -> integral (fun t => cos_series a N (t - xi) * (1 + lam * sin (t - xi))) 0 x v -> ss_cdf iv num lpmv quad xi kappa psi lam x = clip v 0 1.
Proof. exact ss_cdf_series. Qed.
Print Assumptions C68_series_partial.
(** psi = 1: cdf is exactly the distribution function of pdf. *)
Theorem C68_exact_partial : forall iv num lpmv quad xi kappa lam, is_iv iv -> is_lpmv lpmv -> ss_ok xi kappa 1 lam = true -> jp_ktol <= kappa <= 500 ->
  quad_exact quad (fun x => jp_kernel kappa 1 (x - 0)) (- PI) PI -> quad_exact quad (fun x => jp_kernel kappa 1 (x - xi)) (- PI) PI ->
  describes (public_pdf (ss_ok xi kappa 1 lam) (ss_pdf iv lpmv quad xi kappa 1 lam)) (public_cdf (ss_ok xi kappa 1 lam) (ss_cdf iv num lpmv quad xi kappa 1 lam)).
Proof. exact ss_cdf_one. Qed.
Print Assumptions C68_exact_partial.
(** For kappa below 1e-3 the value at the origin is not subtracted. *)
Theorem C68_refuted : exists xi kappa psi lam x y, ss_ok xi kappa psi lam = true /\ 0 < x /\ x < y /\ y < 2 * PI /\
  forall iv num lpmv quad, public_cdf (ss_ok xi kappa psi lam) (ss_cdf iv num lpmv quad xi kappa psi lam) x = Fin (3 / 4) /\
    public_cdf (ss_ok xi kappa psi lam) (ss_cdf iv num lpmv quad xi kappa psi lam) y = Fin (1 / 4).
Proof.
  exists PI, 0, 1, 0, (PI / 2), (3 * (PI / 2)). pose proof PI_gt3. split; [apply ss_ok_spec; lra|]. split; [lra|]. split; [lra|]. split; [lra|].
  intros iv num lpmv quad. apply ss_flat_decreases.
Qed.
Print Assumptions C68_refuted.
Example C68_example : ss_ok 1 2 (3 / 2) (- (1 / 2)) = true /\ jp_ktol <= 2 /\ / 10 ^ 12 <= Rabs (- (1 / 2)) /\
  ss_ok 1 2 1 (1 / 2) = true /\ jp_ktol <= 2 <= 500 /\ exists iv lpmv quad, is_iv iv /\ is_lpmv lpmv /\ (forall nu z, 1 <= z -> exists v, lpmv nu z = Fin v) /\
    forall mu, quad_exact quad (fun x => jp_kernel 2 1 (x - mu)) (- PI) PI.
Proof. exact (conj (proj1 ex_ss_ok) (conj (proj1 (proj2 ex_jp_one)) (conj (proj2 (proj2 (proj2 ex_ss_ok))) (conj ex_ss_one (conj (proj2 ex_jp_one) (ex_scipy 2 1)))))). Qed.

(** ** C131: the density of jonespewsey *)
Theorem C131_density : forall iv lpmv quad mu kappa psi, is_iv iv -> is_lpmv lpmv -> jp_ok mu kappa psi = true -> Rabs (kappa * psi) <= 500 ->
  quad_exact quad (fun x => jp_kernel kappa psi (x - mu)) (- PI) PI ->
  pdf_is_density (public_pdf (jp_ok mu kappa psi) (jp_pdf iv lpmv quad mu kappa psi)).
Proof. exact jp_density. Qed.
Print Assumptions C131_density.
Theorem C131_unimodal : forall iv lpmv quad mu kappa psi, is_iv iv -> is_lpmv lpmv -> jp_ok mu kappa psi = true -> Rabs (kappa * psi) <= 500 ->
  quad_exact quad (fun x => jp_kernel kappa psi (x - mu)) (- PI) PI ->
  unimodal_about (public_pdf (jp_ok mu kappa psi) (jp_pdf iv lpmv quad mu kappa psi)) mu.
Proof. exact jp_unimodal. Qed.
Print Assumptions C131_unimodal.
Theorem C131_members : forall iv lpmv quad mu kappa psi, is_iv iv -> is_lpmv lpmv -> jp_ok mu kappa psi = true -> jp_ktol <= kappa <= 500 ->
  quad_exact quad (fun x => jp_kernel kappa psi (x - mu)) (- PI) PI -> forall x,
  (psi = 1 -> jp_pdf iv lpmv quad mu kappa psi x = car_pdf mu (tanh kappa / 2) x /\ car_ok mu (tanh kappa / 2) = true) /\
  (psi = - 1 -> jp_pdf iv lpmv quad mu kappa psi x = wc_pdf mu (tanh (kappa / 2)) x /\ wc_ok mu (tanh (kappa / 2)) = true) /\
  (Rabs psi < jp_ptol -> jp_pdf iv lpmv quad mu kappa psi x = von_pdf iv mu kappa x /\ von_ok mu kappa = true).
Proof. exact jp_special. Qed.
Print Assumptions C131_members.
Example C131_example : jp_ok 1 2 (3 / 2) = true /\ Rabs (2 * (3 / 2)) <= 500 /\ jp_ktol <= 2 <= 500 /\
  exists iv lpmv quad, is_iv iv /\ is_lpmv lpmv /\ (forall nu z, 1 <= z -> exists v, lpmv nu z = Fin v) /\
    forall mu, quad_exact quad (fun x => jp_kernel 2 (3 / 2) (x - mu)) (- PI) PI.
Proof. exact (conj (proj1 ex_jp_ok) (conj (proj2 ex_jp_ok) (conj (proj2 ex_jp_one) (ex_scipy 2 (3 / 2))))). Qed.

(** ** C132: cdf of jonespewsey *)
(** Missing: how close the truncated series is to pdf for other psi; it can be far (last theorem). *)
Theorem C132_series_partial : forall iv num lpmv quad mu kappa psi, jp_ktol <= kappa -> jp_ptol <= Rabs psi ->
  exists a N, (N <= 256)%nat /\
    (forall n, a n = clip (riemann_turn (fun t => cos (INR n * t) * jp_pdf iv lpmv quad 0 kappa psi t)) (- 1) 1) /\
    forall x v, 0 < x < 2 * PI -> integral (fun t => cos_series a N (t - mu)) 0 x v -> jp_cdf iv num lpmv quad mu kappa psi x = clip v 0 1.
Proof. exact jp_cdf_series. Qed.
Print Assumptions C132_series_partial.
Theorem C132_cardioid_partial : forall iv num lpmv quad mu kappa, is_iv iv -> is_lpmv lpmv -> jp_ok mu kappa 1 = true -> jp_ktol <= kappa <= 500 ->
  quad_exact quad (fun x => jp_kernel kappa 1 (x - 0)) (- PI) PI -> quad_exact quad (fun x => jp_kernel kappa 1 (x - mu)) (- PI) PI ->
  describes (public_pdf (jp_ok mu kappa 1) (jp_pdf iv lpmv quad mu kappa 1)) (public_cdf (jp_ok mu kappa 1) (jp_cdf iv num lpmv quad mu kappa 1)).
Proof. exact jp_cdf_one. Qed.
Print Assumptions C132_cardioid_partial.
Theorem C132_flat_partial : forall iv num lpmv quad mu kappa psi, jp_ok mu kappa psi = true -> kappa < jp_ktol ->
  describes (public_pdf (jp_ok mu kappa psi) (jp_pdf iv lpmv quad mu kappa psi)) (public_cdf (jp_ok mu kappa psi) (jp_cdf iv num lpmv quad mu kappa psi)).
Proof. exact jp_cdf_flat. Qed.
Print Assumptions C132_flat_partial.
Theorem C132_vonmises_partial : forall iv num lpmv quad mu kappa psi x, jp_ok mu kappa psi = true -> jp_ktol <= kappa -> Rabs psi < jp_ptol ->
  public_cdf (jp_ok mu kappa psi) (jp_cdf iv num lpmv quad mu kappa psi) x = public_cdf (von_ok mu kappa) (von_cdf iv num mu kappa) x.
Proof. exact jp_von. Qed.
Print Assumptions C132_vonmises_partial.
(** A wrapped Cauchy shape with kappa = 14 (rho = tanh 7): all coefficients are clipped to 1, cdf overshoots to 1 and comes down again. *)
Theorem C132_refuted : exists mu kappa psi x y, jp_ok mu kappa psi = true /\ 0 < x /\ x < y /\ y < 2 * PI /\
  forall iv num lpmv quad, is_iv iv -> is_lpmv lpmv -> quad_exact quad (fun t => jp_kernel kappa psi (t - 0)) (- PI) PI ->
    exists v, public_cdf (jp_ok mu kappa psi) (jp_cdf iv num lpmv quad mu kappa psi) x = Fin 1 /\
      public_cdf (jp_ok mu kappa psi) (jp_cdf iv num lpmv quad mu kappa psi) y = Fin v /\ v < 1.
Proof.
  exists PI, 14, (- 1), (PI + 3 / 320), (3 * (PI / 2)). pose proof PI_gt3. assert (E : jp_ok PI 14 (- 1) = true) by (apply jp_ok_spec; lra).
  split; [exact E|]. split; [lra|]. split; [lra|]. split; [lra|]. intros iv num lpmv quad Hi Hl HQ. destruct (jp_cdf_decreases iv num lpmv quad Hi Hl HQ) as [A B].
  eexists. rewrite E, !at_angle_pub, !at_angle_in by lra. rewrite A. split; [reflexivity|]. split; [reflexivity|exact B].
Qed.
Print Assumptions C132_refuted.
Example C132_example : jp_ok 1 2 1 = true /\ jp_ktol <= 2 <= 500 /\ exists iv lpmv quad, is_iv iv /\ is_lpmv lpmv /\ (forall nu z, 1 <= z -> exists v, lpmv nu z = Fin v) /\
  forall mu, quad_exact quad (fun x => jp_kernel 2 1 (x - mu)) (- PI) PI.
Proof. exact (conj (proj1 ex_jp_one) (conj (proj2 ex_jp_one) (ex_scipy 2 1))). Qed.
Example C132_refuted_example : exists iv lpmv quad, is_iv iv /\ is_lpmv lpmv /\ (forall nu z, 1 <= z -> exists v, lpmv nu z = Fin v) /\
  forall mu, quad_exact quad (fun x => jp_kernel 14 (- 1) (x - mu)) (- PI) PI.
Proof. exact (ex_scipy 14 (- 1)). Qed.

(** ** C133: the quantile functions of jonespewsey and jonespewsey_asym *)
Theorem C133_jonespewsey : forall iv num ndtri lpmv quad mu kappa psi q, jp_ok mu kappa psi = true -> 0 < q < 1 -> jp_ptol <= Rabs psi \/ mu < 2 * PI ->
  exists th, public_ppf (jp_ok mu kappa psi) (jp_ppf iv num ndtri lpmv quad mu kappa psi) q = Fin th /\
    inverts (public_cdf (jp_ok mu kappa psi) (jp_cdf iv num lpmv quad mu kappa psi)) q th (2 / 10 ^ 12) (8 / 10 ^ 9).
Proof. exact jp_inverts. Qed.
Print Assumptions C133_jonespewsey.
Theorem C133_asym : forall iv num lpmv quad xi kappa psi nu q, as_ok xi kappa psi nu = true -> 0 < q < 1 -> xi < 2 * PI ->
  exists th, public_ppf (as_ok xi kappa psi nu) (as_ppf iv num lpmv quad xi kappa psi nu) q = Fin th /\
    inverts (public_cdf (as_ok xi kappa psi nu) (as_cdf iv num lpmv quad xi kappa psi nu)) q th (2 / 10 ^ 12) (8 / 10 ^ 9).
Proof. exact as_inverts. Qed.
Print Assumptions C133_asym.
Example C133_example : jp_ok 1 2 (3 / 2) = true /\ as_ok 1 2 (3 / 2) (1 / 3) = true /\ 0 < 1 / 3 < 1 /\ 1 < 2 * PI.
Proof. pose proof PI_gt3. split; [exact (proj1 ex_jp_ok)|split; [exact ex_as_ok|lra]]. Qed.

(** ** C134: the moment fit of jonespewsey *)
(** Missing: equality of the reported and the actual log-likelihood; it fails (next theorem). *)
Theorem C134_partial : forall iv lpmv quad s mu kappa psi ll, is_iv iv -> jp_fit_moments (jp_pdf iv lpmv quad) s = Ok (mu, kappa, psi, ll) ->
  let C := Rsum (map (fun d => snd d * cos (fst d)) s) in let S := Rsum (map (fun d => snd d * sin (fst d)) s) in
  psi = 0 /\ 0 <= mu < 2 * PI /\ / 10 ^ 6 <= kappa <= 10 ^ 3 /\
  (/ 10 ^ 12 * Rsum (map snd s) < sqrt (C * C + S * S) -> C = sqrt (C * C + S * S) * cos mu /\ S = sqrt (C * C + S * S) * sin mu) /\
  exists w, ll = Fin w /\ Rsum (map (fun d => snd d * ln (jp_pdf iv lpmv quad mu kappa 0 (fst d))) s) <= w.
Proof. exact jp_fit_spec. Qed.
Print Assumptions C134_partial.
(** Weights that are no weights: the fit raises ValueError, whatever the density. *)
Theorem C134_rejects : forall pdf s, s = [] \/ (exists d, In d s /\ snd d < 0) \/ Rsum (map snd s) <= 0 -> jp_fit_moments pdf s = Err ValueError.
Proof. exact jp_fit_rejects. Qed.
Print Assumptions C134_rejects.
(** The reported value is the best over a grid of psi, but the returned psi is always 0. *)
Theorem C134_refuted : exists s mu kappa psi, forall iv lpmv quad, is_iv iv -> is_lpmv lpmv -> quad_exact quad (fun x => jp_kernel kappa (- 1) (x - mu)) (- PI) PI ->
  exists w, jp_fit_moments (jp_pdf iv lpmv quad) s = Ok (mu, kappa, psi, Fin w) /\
    Rsum (map (fun d => snd d * ln (jp_pdf iv lpmv quad mu kappa psi (fst d))) s) < w.
Proof. exists [(0, 15); (PI, 5)], 0, (221 / 192), 0. exact jp_two_better. Qed.
Print Assumptions C134_refuted.
Example C134_example : exists iv lpmv quad, is_iv iv /\ is_lpmv lpmv /\ (forall nu z, 1 <= z -> exists v, lpmv nu z = Fin v) /\
  forall mu, quad_exact quad (fun x => jp_kernel (221 / 192) (- 1) (x - mu)) (- PI) PI.
Proof. exact (ex_scipy (221 / 192) (- 1)). Qed.
Example C134_fit_example : forall pdf, exists ll, jp_fit_moments pdf [(0, 15); (PI, 5)] = Ok (0, 221 / 192, 0, ll).
Proof. exact ex_fit. Qed.

(** ** C135: the density of jonespewsey_sineskewed *)
Theorem C135_density : forall iv lpmv quad xi kappa psi lam, is_iv iv -> is_lpmv lpmv -> ss_ok xi kappa psi lam = true -> Rabs (kappa * psi) <= 500 ->
  quad_exact quad (fun x => jp_kernel kappa psi (x - xi)) (- PI) PI ->
  pdf_is_density (public_pdf (ss_ok xi kappa psi lam) (ss_pdf iv lpmv quad xi kappa psi lam)).
Proof. exact ss_density. Qed.
Print Assumptions C135_density.
Example C135_example : ss_ok 1 2 (3 / 2) (- (1 / 2)) = true /\ Rabs (2 * (3 / 2)) <= 500 /\
  exists iv lpmv quad, is_iv iv /\ is_lpmv lpmv /\ (forall nu z, 1 <= z -> exists v, lpmv nu z = Fin v) /\
    forall mu, quad_exact quad (fun x => jp_kernel 2 (3 / 2) (x - mu)) (- PI) PI.
Proof. exact (conj (proj1 ex_ss_ok) (conj (proj2 ex_jp_ok) (ex_scipy 2 (3 / 2)))). Qed.

(** ** C136: the quantile function of jonespewsey_sineskewed *)
(** Missing: kappa below 1e-3 (the claim fails, last theorem), and 0 < |lmbd| < 1e-12. *)
Theorem C136_skewed_partial : forall iv num ndtri lpmv quad xi kappa psi lam q, ss_ok xi kappa psi lam = true -> 0 < q < 1 -> jp_ktol <= kappa -> / 10 ^ 12 <= Rabs lam ->
  exists th, public_ppf (ss_ok xi kappa psi lam) (ss_ppf iv num ndtri lpmv quad xi kappa psi lam) q = Fin th /\
    inverts (public_cdf (ss_ok xi kappa psi lam) (ss_cdf iv num lpmv quad xi kappa psi lam)) q th (2 / 10 ^ 12) (8 / 10 ^ 9).
Proof. exact ss_inverts. Qed.
Print Assumptions C136_skewed_partial.
Theorem C136_symmetric_partial : forall iv num ndtri lpmv quad xi kappa psi q, ss_ok xi kappa psi 0 = true -> 0 < q < 1 -> jp_ktol <= kappa -> jp_ptol <= Rabs psi ->
  exists th, public_ppf (ss_ok xi kappa psi 0) (ss_ppf iv num ndtri lpmv quad xi kappa psi 0) q = Fin th /\
    inverts (public_cdf (ss_ok xi kappa psi 0) (ss_cdf iv num lpmv quad xi kappa psi 0)) q th (2 / 10 ^ 12) (8 / 10 ^ 9).
Proof. exact ss_sym_inverts. Qed.
Print Assumptions C136_symmetric_partial.
(** With kappa = 0, xi = 0 and lmbd = 1 the median is returned as pi, although cdf is above 11/20 on all of [pi - 1/2, pi]. *)
Theorem C136_refuted : exists xi kappa psi lam q th, ss_ok xi kappa psi lam = true /\ 0 < q < 1 /\ forall iv num ndtri lpmv quad,
  public_ppf (ss_ok xi kappa psi lam) (ss_ppf iv num ndtri lpmv quad xi kappa psi lam) q = Fin th /\
  ~ inverts (public_cdf (ss_ok xi kappa psi lam) (ss_cdf iv num lpmv quad xi kappa psi lam)) q th (/ 20) (1 / 2).
Proof.
  exists 0, 0, 1, 1, (1 / 2), PI. pose proof PI_gt3. split; [apply ss_ok_spec; lra|]. split; [lra|]. intros iv num ndtri lpmv quad. apply ss_flat_ppf.
Qed.
Print Assumptions C136_refuted.
Example C136_example : ss_ok 1 2 (3 / 2) (- (1 / 2)) = true /\ 0 < 1 / 3 < 1 /\ jp_ktol <= 2 /\ / 10 ^ 12 <= Rabs (- (1 / 2)).
Proof. refine (conj (proj1 ex_ss_ok) (conj _ (conj (proj1 (proj2 ex_jp_one)) (proj2 (proj2 (proj2 ex_ss_ok)))))); lra. Qed.

(** ** C137: density and distribution function of jonespewsey_asym *)
Theorem C137_density : forall quad xi kappa psi nu, as_ok xi kappa psi nu = true ->
  quad_exact quad (fun x => as_kernel kappa psi nu (x - xi)) (- PI) PI ->
  pdf_is_density (public_pdf (as_ok xi kappa psi nu) (as_pdf quad xi kappa psi nu)).
Proof. exact as_density. Qed.
Print Assumptions C137_density.
Theorem C137_cdf : forall iv num lpmv quad xi kappa psi nu, as_ok xi kappa psi nu = true ->
  quad_exact quad (fun x => as_kernel kappa psi nu (x - xi)) (- PI) PI ->
  exists F, (forall x, public_cdf (as_ok xi kappa psi nu) (as_cdf iv num lpmv quad xi kappa psi nu) x = Fin (F x)) /\
    F 0 = 0 /\ F (2 * PI) = 1 /\
    forall x y, 0 <= x -> x <= y -> y <= 2 * PI -> 0 <= F y - F x <= 4096 / (2 * PI) * (y - x).
Proof. exact as_cdf_function. Qed.
Print Assumptions C137_cdf.
Example C137_example : as_ok 1 2 (3 / 2) (1 / 3) = true /\ exists quad, forall xi, quad_exact quad (fun x => as_kernel 2 (3 / 2) (1 / 3) (x - xi)) (- PI) PI.
Proof. exact (conj ex_as_ok (as_quad_exists 2 (3 / 2) (1 / 3))). Qed.

(** ** C138: accuracy of jonespewsey_asym.cdf *)
(** Missing: densities with large slope; the claim fails for them (next theorem). *)
Theorem C138_partial : forall iv num lpmv quad xi kappa psi nu L x v, as_ok xi kappa psi nu = true ->
  quad_exact quad (fun x => as_kernel kappa psi nu (x - xi)) (- PI) PI -> 0 < x < 2 * PI ->
  (forall y z, Rabs (as_pdf quad xi kappa psi nu y - as_pdf quad xi kappa psi nu z) <= L * Rabs (y - z)) ->
  integral (as_pdf quad xi kappa psi nu) 0 x v ->
  exists u, public_cdf (as_ok xi kappa psi nu) (as_cdf iv num lpmv quad xi kappa psi nu) x = Fin u /\ Rabs (u - v) <= L / 48.
Proof. exact as_cdf_close. Qed.
Print Assumptions C138_partial.
(** kappa = 14, psi = -1: an arc with probability above 1/9 gets less than 1/400. *)
Theorem C138_refuted : exists xi kappa psi nu, as_ok xi kappa psi nu = true /\ forall iv num lpmv quad,
  quad_exact quad (fun x => as_kernel kappa psi nu (x - xi)) (- PI) PI ->
  exists x y u v w, 0 < x /\ x < y /\ y < 2 * PI /\
    public_cdf (as_ok xi kappa psi nu) (as_cdf iv num lpmv quad xi kappa psi nu) x = Fin u /\
    public_cdf (as_ok xi kappa psi nu) (as_cdf iv num lpmv quad xi kappa psi nu) y = Fin v /\
    integral (as_pdf quad xi kappa psi nu) x y w /\ v - u <= / 400 /\ / 9 <= w.
Proof. exists PI, 14, (- 1), 0. pose proof PI_gt3. split; [apply as_ok_spec; lra|exact as_sharp]. Qed.
Print Assumptions C138_refuted.
Example C138_example : as_ok 1 1 1 (1 / 2) = true /\ exists quad, quad_exact quad (fun x => as_kernel 1 1 (1 / 2) (x - 1)) (- PI) PI /\
  exists L, forall y z, Rabs (as_pdf quad 1 1 1 (1 / 2) y - as_pdf quad 1 1 1 (1 / 2) z) <= L * Rabs (y - z).
Proof.
  pose proof PI_gt3. split; [apply as_ok_spec; lra|]. destruct (as_quad_exists 1 1 (1 / 2)) as [quad HQ]. exists quad. split; [apply HQ|apply ex_as_lip; apply HQ].
Qed.
Example C138_refuted_example : exists quad, forall xi, quad_exact quad (fun x => as_kernel 14 (- 1) 0 (x - xi)) (- PI) PI.
Proof. exact (as_quad_exists 14 (- 1) 0). Qed.

(** ** C139: sampling jonespewsey_sineskewed *)
(** Missing: |lmbd| = 1 (next theorem); the distribution of the base draws is that of the symmetric member by assumption. *)
Theorem C139_partial : forall iv lpmv quad xi kappa psi lam base, is_iv iv -> is_lpmv lpmv -> ss_ok xi kappa psi lam = true -> Rabs (kappa * psi) <= 500 ->
  quad_exact quad (fun x => jp_kernel kappa psi (x - xi)) (- PI) PI -> Rabs lam < 1 ->
  let f := ss_pdf iv lpmv quad xi kappa psi lam in let g := jp_pdf iv lpmv quad xi kappa psi in
  (forall x, 0 < f x <= (1 + Rabs lam) * g x) /\
  exists r, ss_rvs xi lam base = Ok r /\
    match r with
    | Some p => exists pre u post, base = pre ++ (p, u) :: post /\ u * ((1 + Rabs lam) * g p) <= f p /\ forall p' u', In (p', u') pre -> f p' < u' * ((1 + Rabs lam) * g p')
    | None => forall p u, In (p, u) base -> f p < u * ((1 + Rabs lam) * g p)
    end.
Proof. exact ss_sampler. Qed.
Print Assumptions C139_partial.
(** lmbd = 1 passes the parameter check, and pdf is a density, but rvs raises. *)
Theorem C139_refuted : exists xi kappa psi lam, ss_ok xi kappa psi lam = true /\ (forall base, ss_rvs xi lam base = Err ValueError) /\
  forall iv lpmv quad, is_iv iv -> is_lpmv lpmv -> quad_exact quad (fun x => jp_kernel kappa psi (x - xi)) (- PI) PI ->
    pdf_is_density (public_pdf (ss_ok xi kappa psi lam) (ss_pdf iv lpmv quad xi kappa psi lam)).
Proof.
  exists 1, 2, (3 / 2), 1. pose proof PI_gt3. assert (E : ss_ok 1 2 (3 / 2) 1 = true) by (apply ss_ok_spec; lra). split; [exact E|]. split.
  - intros base. unfold ss_rvs. rewrite Rabs_R1, (proj2 (Rleb_true _ _)) by lra. reflexivity.
  - intros iv lpmv quad Hi Hl HQ. apply ss_density; try assumption. exact (proj2 ex_jp_ok).
Qed.
Print Assumptions C139_refuted.
Example C139_example : ss_ok 1 2 (3 / 2) (- (1 / 2)) = true /\ Rabs (2 * (3 / 2)) <= 500 /\ Rabs (- (1 / 2)) < 1 /\
  exists iv lpmv quad, is_iv iv /\ is_lpmv lpmv /\ (forall nu z, 1 <= z -> exists v, lpmv nu z = Fin v) /\
    forall mu, quad_exact quad (fun x => jp_kernel 2 (3 / 2) (x - mu)) (- PI) PI.
Proof. exact (conj (proj1 ex_ss_ok) (conj (proj2 ex_jp_ok) (conj (proj1 (proj2 (proj2 ex_ss_ok))) (ex_scipy 2 (3 / 2))))). Qed.
