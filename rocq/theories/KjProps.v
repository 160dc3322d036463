(** Property theorems for the Kato-Jones distribution (C57, C64, C65, C107, C110-C112). *)
From Verif Require Import Prelude EmModel NpModel NpProofs CircleSpec UtilsModel UtilsProofs DescModel IntSpec IntProofs DistModel DistSpec DistProofs
  KjModel KjSpec KjProofs Kj2Proofs Kj4Proofs Kj5Proofs Kj6Proofs Kj7Proofs Kj8Proofs KjEx.

(** ** C57: the density *)
(** The formula before clipping is non-negative exactly under the documented constraint. *)
Theorem C57_katojones_sign : forall mu gamma rho lam, 0 < gamma < 1 -> 0 <= rho < 1 ->
  (forall x, 0 <= (1 + 2 * gamma * (cos (x - mu) - rho * cos lam) / (1 + rho ^ 2 - 2 * rho * cos (x - mu - lam))) / (2 * PI)) <->
  (rho * cos lam - gamma) ^ 2 + (rho * sin lam) ^ 2 <= (1 - gamma) ^ 2.
Proof.
  intros mu gamma rho lam Hg Hr. set (c := {| kj_mu := mu; kj_gamma := gamma; kj_rho := rho; kj_lam := lam |}). split.
  - intros H. destruct (Rle_dec ((rho * cos lam - gamma) ^ 2 + (rho * sin lam) ^ 2) ((1 - gamma) ^ 2)) as [|N]; [assumption|].
    destruct (kjU_negative c Hr Hg) as [x Hx]; [cbn; unfold kj_constraint; lra|]. specialize (H x).
    change (kjU c x) with ((1 + 2 * gamma * (cos (x - mu) - rho * cos lam) / (1 + rho ^ 2 - 2 * rho * cos (x - mu - lam))) / (2 * PI)) in Hx. lra.
  - intros H x. apply (kjU_nonneg c); [exact Hr|cbn; lra|exact H].
Qed.
Print Assumptions C57_katojones_sign.
(** Left out: rho above 1 - 1e-7, where the denominator is replaced by 1e-15; false there, see below. *)
Theorem C57_katojones_partial : forall c, kj_documented c -> kj_rho c <= 1 - / 10 ^ 7 -> pdf_is_density (public_pdf (kj_argcheck c) (kj_pdf c)).
Proof. exact (fun c H Hr => kj_density c (conj H Hr)). Qed.
Print Assumptions C57_katojones_partial.
(** _argcheck lets the constraint be missed by 1e-12; the clipped pdf then integrates to more than 1. *)
Theorem C57_katojones_refuted : exists c, kj_argcheck c = true /\ ~ pdf_is_density (public_pdf (kj_argcheck c) (kj_pdf c)).
Proof. exact kj_slack_not_density. Qed.
Print Assumptions C57_katojones_refuted.
(** Nor does the documented constraint alone suffice: next to rho = 1 the floor 1e-15 of the denominator
    cuts the peak off and the pdf integrates to less than 1. *)
Theorem C57_katojones_floor_refuted : exists c, kj_documented c /\ ~ pdf_is_density (public_pdf (kj_argcheck c) (kj_pdf c)).
Proof. exact kj_sharp_not_density. Qed.
Print Assumptions C57_katojones_floor_refuted.
Example C57_katojones_example : (kj_documented ex_kj /\ kj_rho ex_kj <= 99 / 100 /\ / 10 ^ 12 < kj_rho ex_kj) /\
  (1 - 3 / 4) ^ 2 < (1 / 3 * cos PI - 3 / 4) ^ 2 + (1 / 3 * sin PI) ^ 2.
Proof. exact (conj ex_kj_doc ex_kj_bad). Qed.

(** ** C107: trigonometric moments of every integer order *)
Theorem C107_katojones_partial : forall c f p, kj_documented c -> kj_rho c <= 1 - / 10 ^ 7 ->
  (forall x, public_pdf (kj_argcheck c) (kj_pdf c) x = Fin (f x)) ->
  trig_moment_of f p (fst (kj_trig_moment c p)) (snd (kj_trig_moment c p)).
Proof. exact (fun c f p H Hr => kj_moments c f p (conj H Hr)). Qed.
Print Assumptions C107_katojones_partial.
(** Without the bound on rho it is false: already the moment of order 0 differs from the 1 returned. *)
Theorem C107_katojones_refuted : exists c f p, kj_documented c /\ (forall x, public_pdf (kj_argcheck c) (kj_pdf c) x = Fin (f x)) /\
  ~ trig_moment_of f p (fst (kj_trig_moment c p)) (snd (kj_trig_moment c p)).
Proof. exact kj_sharp_moment. Qed.
Print Assumptions C107_katojones_refuted.
Example C107_katojones_example : kj_trig_moment {| kj_mu := 0; kj_gamma := 1 / 3; kj_rho := 1 / 2; kj_lam := PI / 2 |} 3 = (- (1 / 12), 0).
Proof.
  unfold kj_trig_moment. cbn [kj_mu kj_gamma kj_rho kj_lam]. change (3 =? 0)%Z with false. change (3 <? 0)%Z with false. cbn iota.
  change (Z.abs_nat 3) with 3%nat. cbn [Nat.eqb Nat.sub]. replace (INR 3) with 3 by (simpl; ring).
  replace (3 * 0 + (3 - 1) * (PI / 2)) with PI by field. rewrite cos_PI, sin_PI. f_equal; field.
Qed.

(** ** C64: the cdf and the integral of the pdf *)
(** At rho = 0 the cdf is that of the uniform distribution although gamma > 0: wrong by 1/(2 pi). *)
Theorem C64_refuted : exists c f F x v, kj_documented c /\
  (forall x, public_pdf (kj_argcheck c) (kj_pdf c) x = Fin (f x)) /\ is_cdf F f /\
  0 < x < 2 * PI /\ public_cdf (kj_argcheck c) (kj_cdf c) x = Fin v /\ F x = v + 1 / (2 * PI).
Proof. exact kj_rho0. Qed.
Print Assumptions C64_refuted.
(** What holds: within 1e-10.  Missing: rho > 0.99 and the first and last 1e-12 of probability
    (where the series is reduced modulo 1), the last 9e-5 of the turn. *)
Theorem C64_partial : forall c, kj_documented c -> kj_rho c <= 99 / 100 -> kj_gamma c <= / 10 ^ 12 \/ / 10 ^ 12 < kj_rho c ->
  exists f F, (forall x, public_pdf (kj_argcheck c) (kj_pdf c) x = Fin (f x)) /\ is_cdf F f /\
    forall x, / 10 ^ 12 < x <= 2 * PI - 9 / 100000 -> / 10 ^ 12 <= F x <= 1 - / 10 ^ 12 ->
      exists v, public_cdf (kj_argcheck c) (kj_cdf c) x = Fin v /\ Rabs (v - F x) <= / 10 ^ 10.
Proof. exact kj_cdf_partial. Qed.
Print Assumptions C64_partial.
Example C64_example : kj_documented ex_kj /\ kj_rho ex_kj <= 99 / 100 /\ / 10 ^ 12 < kj_rho ex_kj.
Proof. exact ex_kj_doc. Qed.

(** ** C110: monotone cdf *)
(** mu = pi, gamma = 3/4, rho = 1/2, lam = 0: the truncated series is negative near 0 and the
    reduction modulo 1 makes it nearly 1. *)
Theorem C110_refuted : exists c x1 x2 v1 v2, kj_documented c /\ 0 <= x1 /\ x1 <= x2 /\ x2 <= 2 * PI /\
  public_cdf (kj_argcheck c) (kj_cdf c) x1 = Fin v1 /\ public_cdf (kj_argcheck c) (kj_cdf c) x2 = Fin v2 /\
  1 - / 10 ^ 12 <= v1 /\ v2 = 1 / 2.
Proof. exact kj_not_monotone. Qed.
Print Assumptions C110_refuted.

(** ** C111: the ppf *)
Theorem C111_range : forall c q, kj_argcheck c = true -> 0 <= q <= 1 ->
  exists x, public_ppf (kj_argcheck c) (kj_ppf c) q = Fin x /\ 0 <= x <= 2 * PI.
Proof. exact kj_ppf_range. Qed.
Print Assumptions C111_range.
Theorem C111_refuted : exists c q x f F, kj_documented c /\ 0 < q < 1 /\
  public_ppf (kj_argcheck c) (kj_ppf c) q = Fin x /\
  (forall x, public_pdf (kj_argcheck c) (kj_pdf c) x = Fin (f x)) /\ is_cdf F f /\
  F x <= q / 10 ^ 3.
Proof. exact kj_ppf_wrong. Qed.
Print Assumptions C111_refuted.
Example C111_example : kj_argcheck ex_kj = true.
Proof. exact (kj_documented_ok _ (proj1 ex_kj_doc)). Qed.

(** ** C65: conversions between (rho, lam) and the second-order moments *)
Theorem C65_there_and_back : forall gamma rho lam verify, / 10 ^ 12 < gamma < 1 -> 0 <= rho <= 1 - / 10 ^ 12 -> 0 <= lam < 2 * PI ->
  (rho * cos lam - gamma) ^ 2 + (rho * sin lam) ^ 2 <= (1 - gamma) ^ 2 -> / 10 ^ 12 < gamma * rho ->
  exists a b, kj_to_alpha_beta gamma rho lam verify = Ok (a, b) /\ kj_to_rho_lam gamma a b verify = Ok (rho, lam).
Proof. exact kj_there_and_back. Qed.
Print Assumptions C65_there_and_back.
Theorem C65_back_and_there : forall gamma a b verify, / 10 ^ 12 < gamma < 1 ->
  (a - gamma ^ 2) ^ 2 + b ^ 2 <= (gamma * (1 - gamma)) ^ 2 ->
  / 10 ^ 12 < sqrt (a ^ 2 + b ^ 2) <= gamma * (1 - / 10 ^ 12) ->
  exists rho lam, kj_to_rho_lam gamma a b verify = Ok (rho, lam) /\ 0 <= rho < 1 /\ 0 <= lam < 2 * PI /\
    (rho * cos lam - gamma) ^ 2 + (rho * sin lam) ^ 2 <= (1 - gamma) ^ 2 /\
    kj_to_alpha_beta gamma rho lam verify = Ok (a, b).
Proof. exact kj_back_and_there. Qed.
Print Assumptions C65_back_and_there.
(** The projection lands in the disk of feasible moments, at a point nearest to the argument. *)
Theorem C65_project_nearest : forall gamma a b, 0 <= gamma < 1 ->
  let (a', b') := kj_project gamma a b in
  (a' - gamma ^ 2) ^ 2 + b' ^ 2 <= (gamma * (1 - gamma)) ^ 2 /\
  forall x y, (x - gamma ^ 2) ^ 2 + y ^ 2 <= (gamma * (1 - gamma)) ^ 2 ->
    sqrt ((a' - a) ^ 2 + (b' - b) ^ 2) <= sqrt ((x - a) ^ 2 + (y - b) ^ 2).
Proof. exact kj_project_spec. Qed.
Print Assumptions C65_project_nearest.
Theorem C65_project_identity : forall gamma a b, 0 < gamma < 1 -> (a - gamma ^ 2) ^ 2 + b ^ 2 <= (gamma * (1 - gamma)) ^ 2 ->
  kj_project gamma a b = (a, b).
Proof. exact kj_project_id. Qed.
Print Assumptions C65_project_identity.
Theorem C65_project_admissible : forall gamma a b, / 10 ^ 12 < gamma <= 1 - / 10 ^ 12 ->
  let (a', b') := kj_project gamma a b in
  exists rho lam, kj_to_rho_lam gamma a' b' true = Ok (rho, lam) /\ 0 <= rho < 1 /\ 0 <= lam < 2 * PI /\
    (rho * cos lam - gamma) ^ 2 + (rho * sin lam) ^ 2 <= (1 - gamma) ^ 2.
Proof. exact kj_project_admissible. Qed.
Print Assumptions C65_project_admissible.
Example C65_example : (kj_to_alpha_beta (1 / 3) (1 / 2) (PI / 2) true = Ok (0, 1 / 6) /\
  kj_to_rho_lam (1 / 3) 0 (1 / 6) true = Ok (1 / 2, PI / 2) /\ kj_to_rho_lam (1 / 3) 0 1 true = Err ValueError) /\
  kj_project (1 / 2) (1 / 4) 1 = (1 / 4, 1 / 4).
Proof. exact (conj ex_kj_conv ex_kj_project). Qed.

(** ** C112: the method-of-moments fit *)
Theorem C112_moments : forall s mu g rho lam, kj_fit_moments s = Ok (Fin mu, g, Fin rho, Fin lam) ->
  let c := {| kj_mu := mu; kj_gamma := g; kj_rho := rho; kj_lam := lam |} in
  let (a1, b1) := sample_moment s 1 0 in
  let (a2, b2) := sample_moment s 2 mu in
  kj_documented c /\
  (sqrt (a1 ^ 2 + b1 ^ 2) <= 1 - / 10 ^ 9 -> kj_trig_moment c 1 = (a1, b1) /\
    ((a2 - g ^ 2) ^ 2 + b2 ^ 2 <= (g * (1 - g)) ^ 2 -> g / 10 ^ 12 <= sqrt (a2 ^ 2 + b2 ^ 2) <= g * (1 - / 10 ^ 9) ->
      kj_trig_moment c 2 = sample_moment s 2 0)).
Proof. exact kj_fit_spec. Qed.
Print Assumptions C112_moments.
Theorem C112_no_error : forall s, s <> [] -> (forall p, In p s -> 0 <= snd p) -> 0 < Rsum (map snd s) ->
  exists mu g rho lam, kj_fit_moments s = Ok (mu, g, rho, lam).
Proof. exact kj_fit_total. Qed.
Print Assumptions C112_no_error.
(** Perfectly balanced angles: mu is NaN. *)
Theorem C112_refuted : exists s g rho lam, (forall p, In p s -> snd p = 1) /\ kj_fit_moments s = Ok (NaN, g, rho, lam).
Proof.
  destruct kj_fit_nan as (g & rho & lam & H). exists [(0, 1); (PI, 1)], g, rho, lam. split; [|exact H].
  intros p [<-|[<-|[]]]; reflexivity.
Qed.
Print Assumptions C112_refuted.
Example C112_example : exists rho, kj_fit_moments ex_kj_data = Ok (Fin 0, 1 / 2, Fin rho, Fin 0) /\ rho = 1 - / 10 ^ 9.
Proof. exact ex_kj_fit. Qed.
