(** Property theorems for the von Mises distribution (C62, C63, C113-C118). *)
From Verif Require Import Prelude NpModel NpProofs CircleSpec UtilsModel DescModel IntSpec DistModel DistSpec DistProofs
  VonModel VonSpec VonProofs Von3Proofs Von4Proofs Von5Proofs Von6Proofs VonEx.

(** ** C62: entropy *)
(** The differential entropy of the pdf is ln(2 pi) minus the value [entropy] returns. *)
Theorem C62_offset : forall iv mu kappa, is_iv iv -> von_ok mu kappa = true ->
  is_entropy (von_pdf iv mu kappa) (ln (2 * PI) - von_entropy iv kappa).
Proof. exact von_entropy_offset. Qed.
Print Assumptions C62_offset.
Theorem C62_refuted : exists mu kappa, von_ok mu kappa = true /\
  forall iv, is_iv iv -> ~ is_entropy (von_pdf iv mu kappa) (von_entropy iv kappa).
Proof.
  exists 0, (1 / 10). pose proof PI_RGT_0. assert (E : von_ok 0 (1 / 10) = true) by (apply von_ok_intro; lra). split; [exact E|].
  intros iv H0. exact (von_entropy_wrong iv H0 0 (1 / 10) E (Rle_refl _)).
Qed.
Print Assumptions C62_refuted.
Example C62_example : exists iv, is_iv iv /\ von_ok (PI / 3) 2 = true.
Proof. destruct iv_exists as [iv H]. exact (ex_intro _ iv (conj H ex_von)). Qed.

(** ** C63: the gradient handed to the optimiser *)
(** Missing: the first component has the wrong sign; the second one is right. *)
Theorem C63_vonmises_partial : forall iv s mu kappa, is_iv iv -> 0 < kappa ->
  is_gradient (von_nll iv s) mu kappa (- fst (von_grad iv s mu kappa), snd (von_grad iv s mu kappa)).
Proof. exact von_gradient. Qed.
Print Assumptions C63_vonmises_partial.
Theorem C63_vonmises_refuted : exists s mu kappa, 0 < kappa /\
  forall iv, is_iv iv -> ~ is_gradient (von_nll iv s) mu kappa (von_grad iv s mu kappa).
Proof.
  exists [(PI / 2, 1)], 0, 1. split; [lra|]. intros iv H. apply von_gradient_wrong; [exact H|lra|exact ex_von_grad].
Qed.
Print Assumptions C63_vonmises_refuted.
Example C63_vonmises_example : exists iv, is_iv iv /\ 0 < 2.
Proof. destruct iv_exists as [iv H]. exists iv. split; [exact H|lra]. Qed.

(** ** C113: density and moments *)
Theorem C113_density : forall iv mu kappa, is_iv iv -> von_ok mu kappa = true ->
  pdf_is_density (public_pdf (von_ok mu kappa) (von_pdf iv mu kappa)).
Proof. exact von_density. Qed.
Print Assumptions C113_density.
Theorem C113_logpdf : forall iv mu kappa x, is_iv iv ->
  von_logpdf iv mu kappa x = ln (von_pdf iv mu kappa x) /\ 0 < von_pdf iv mu kappa x.
Proof. exact (fun iv mu kappa x H => conj (von_logpdf_ln iv mu kappa x H) (von_pdf_pos iv mu kappa x H)). Qed.
Print Assumptions C113_logpdf.
Theorem C113_moments : forall iv mu kappa f (n : nat), is_iv iv -> von_ok mu kappa = true ->
  (forall x, public_pdf (von_ok mu kappa) (von_pdf iv mu kappa) x = Fin (f x)) ->
  trig_moment_of f (Z.of_nat n) (iv n kappa / iv 0%nat kappa * cos (INR n * mu)) (iv n kappa / iv 0%nat kappa * sin (INR n * mu)).
Proof. exact von_moments. Qed.
Print Assumptions C113_moments.
(** var and std are those of the first trigonometric moment of the pdf. *)
Theorem C113_var_std : forall iv mu kappa f a b, is_iv iv -> von_ok mu kappa = true ->
  (forall x, public_pdf (von_ok mu kappa) (von_pdf iv mu kappa) x = Fin (f x)) -> trig_moment_of f 1 a b ->
  von_var iv kappa = 1 - sqrt (a ^ 2 + b ^ 2) /\ von_std iv kappa = sqrt (- 2 * ln (sqrt (a ^ 2 + b ^ 2))).
Proof. exact von_first. Qed.
Print Assumptions C113_var_std.
Example C113_example : exists iv f, is_iv iv /\ von_ok (PI / 3) 2 = true /\
  (forall x, public_pdf (von_ok (PI / 3) 2) (von_pdf iv (PI / 3) 2) x = Fin (f x)).
Proof.
  destruct iv_exists as [iv H]. destruct (von_density iv _ _ H ex_von) as (f & E & _). exists iv, f. exact (conj H (conj ex_von E)).
Qed.

(** ** C114: accuracy of cdf *)
(** Missing: angles that np.isclose takes for 2 pi (the last 6.3e-5), where 1 is returned.  For
    kappa above 460 the series may not converge in 500 terms; then the quadrature is trusted. *)
Theorem C114_partial : forall iv num mu kappa x v, is_iv iv -> von_ok mu kappa = true -> 0 < x < 2 * PI -> isclose x (2 * PI) = false ->
  (460 < kappa -> Rabs (num x mu kappa - v) <= / 10 ^ 10) ->
  integral (von_pdf iv mu kappa) 0 x v ->
  exists u, public_cdf (von_ok mu kappa) (von_cdf iv num mu kappa) x = Fin u /\
    Rabs (u - v) <= 4 / 10 ^ 9 /\ (/ 10 ^ 9 <= kappa -> Rabs (u - v) <= / 10 ^ 10).
Proof. exact von_cdf_both. Qed.
Print Assumptions C114_partial.
(** cdf is not the distribution function of pdf for any kappa up to 460. *)
Theorem C114_refuted : forall iv num mu kappa, is_iv iv -> von_ok mu kappa = true -> kappa <= 460 ->
  ~ describes (public_pdf (von_ok mu kappa) (von_pdf iv mu kappa)) (public_cdf (von_ok mu kappa) (von_cdf iv num mu kappa)).
Proof. exact von_not_describes. Qed.
Print Assumptions C114_refuted.
Example C114_example : exists iv v, is_iv iv /\ von_ok (PI / 3) 2 = true /\ 0 < 1 < 2 * PI /\ isclose 1 (2 * PI) = false /\
  integral (von_pdf iv (PI / 3) 2) 0 1 v.
Proof.
  destruct iv_exists as [iv H]. destruct (von_truth iv (PI / 3) 2 H) as (G & _ & _ & _ & GI & _). pose proof PI_RGT_0. pose proof Dist4Proofs.PI_gt3.
  exists iv, (G 1). split; [exact H|]. split; [exact ex_von|]. split; [lra|]. split; [exact ex_not_window|apply GI; lra].
Qed.

(** ** C115: the quantile function *)
(** Missing: q above the probability of all but the last 9e-5 of the turn. *)
Theorem C115_partial : forall iv num ndtri mu kappa q v, is_iv iv -> von_ok mu kappa = true -> / 10 ^ 9 < kappa ->
  (460 < kappa -> forall x w, 0 < x < 2 * PI -> integral (von_pdf iv mu kappa) 0 x w -> Rabs (num x (pymod mu (2 * PI)) kappa - w) <= / 10 ^ 10) ->
  0 < q < 1 -> integral (von_pdf iv mu kappa) 0 (2 * PI - 9 / 100000) v -> q <= v -> q <= 1 - / 10 ^ 11 ->
  let th := von_ppf iv num ndtri mu kappa q in
  0 <= th < 2 * PI /\ exists th' w, 0 <= th' <= 2 * PI /\ Rabs (th - th') <= 8 / 10 ^ 9 /\
    integral (von_pdf iv mu kappa) 0 th' w /\ Rabs (w - q) <= 2 / 10 ^ 10.
Proof. exact von_ppf_acc. Qed.
Print Assumptions C115_partial.
Theorem C115_small_partial : forall iv num ndtri mu kappa q, is_iv iv -> 0 < kappa <= / 10 ^ 9 -> 0 < q < 1 ->
  forall w, integral (von_pdf iv mu kappa) 0 (von_ppf iv num ndtri mu kappa q) w -> Rabs (w - q) <= 4 / 10 ^ 9.
Proof. exact von_ppf_small. Qed.
Print Assumptions C115_small_partial.
(** For kappa = 1 and mu = 0 the quantile of 1 - 1e-7 is 5e-7 too small in probability. *)
Theorem C115_refuted : exists mu kappa q, von_ok mu kappa = true /\ 0 < q < 1 /\
  forall iv num ndtri, is_iv iv -> exists th, public_ppf (von_ok mu kappa) (von_ppf iv num ndtri mu kappa) q = Fin th /\
    forall w, integral (von_pdf iv mu kappa) 0 th w -> w <= q - 5 / 10 ^ 7.
Proof.
  exists 0, 1, (1 - / 10 ^ 7). pose proof PI_RGT_0. assert (E : von_ok 0 1 = true) by (apply von_ok_intro; lra). split; [exact E|]. split; [lra|].
  intros iv num ndtri Hi. eexists. split; [apply von_ppf_public; [exact E|lra]|exact (von_ppf_wrong iv num ndtri Hi)].
Qed.
Print Assumptions C115_refuted.
Example C115_example : exists iv v, is_iv iv /\ von_ok 0 1 = true /\ integral (von_pdf iv 0 1) 0 (2 * PI - 9 / 100000) v /\ 1 / 2 <= v.
Proof.
  destruct iv_exists as [iv H]. destruct (von_truth iv 0 1 H) as (G & _ & _ & _ & GI & _). pose proof PI_RGT_0. pose proof Dist4Proofs.PI_gt3.
  assert (I : integral (von_pdf iv 0 1) 0 (2 * PI - 9 / 100000) (G (2 * PI - 9 / 100000))) by (apply GI; lra).
  exists iv, (G (2 * PI - 9 / 100000)). split; [exact H|]. split; [apply von_ok_intro; lra|]. split; [exact I|exact (ex_ppf_hyp iv _ H I)].
Qed.

(** ** C116: rvs draws from pdf *)
Theorem C116_sampler : forall iv mu kappa, is_iv iv -> / 10 ^ 9 < kappa ->
  rejection_sampler (von_rvs mu kappa) (von_pdf iv mu kappa) mu.
Proof. exact von_sampler. Qed.
Print Assumptions C116_sampler.
(** Smaller concentrations: uniform draws, 4e-9 from the distribution function of pdf. *)
Theorem C116_small : forall iv mu kappa u rest v, is_iv iv -> 0 < kappa <= / 10 ^ 9 -> 0 <= u < 1 ->
  von_rvs mu kappa (u :: rest) = Some (2 * PI * u) /\ (integral (von_pdf iv mu kappa) 0 (2 * PI * u) v -> Rabs (u - v) <= 4 / 10 ^ 9).
Proof. exact von_rvs_small. Qed.
Print Assumptions C116_small.
Example C116_example : exists iv, is_iv iv /\ / 10 ^ 9 < 2.
Proof. destruct iv_exists as [iv H]. exists iv. split; [exact H|lra]. Qed.

(** ** C117: the location estimate *)
Theorem C117_location : forall iv s mu kappa mu', is_iv iv -> von_fit_mu s = Ok mu -> 0 < kappa ->
  let len := sqrt (Rsum (map (fun p => snd p * cos (fst p)) s) ^ 2 + Rsum (map (fun p => snd p * sin (fst p)) s) ^ 2) in
  let total := Rsum (map snd s) in
  von_ok mu kappa = true /\
  loglik (von_pdf iv mu' kappa) s <= loglik (von_pdf iv mu kappa) s + 2 * kappa * (/ 10 ^ 12 * total) /\
  (/ 10 ^ 12 * total < len -> loglik (von_pdf iv mu' kappa) s <= loglik (von_pdf iv mu kappa) s).
Proof. exact von_fit_best. Qed.
Print Assumptions C117_location.
Example C117_example : (exists mu, von_fit_mu [(0, 1); (PI / 2, 3)] = Ok mu) /\
  let s := [(0, 1); (PI / 2, 3)] in
  / 10 ^ 12 * Rsum (map snd s) < sqrt (Rsum (map (fun p => snd p * cos (fst p)) s) ^ 2 + Rsum (map (fun p => snd p * sin (fst p)) s) ^ 2).
Proof. exact (conj ex_von_fit ex_von_fit_len). Qed.

(** ** C118: how rvs takes its parameters *)
(** rvs(mu, kappa) and rvs(mu, kappa, size=n) raise for every admissible mu, kappa; kappa = -1 is
    accepted and drawn from uniformly. *)
Theorem C118_refuted : (forall mu kappa, von_rvs_call [mu; kappa] None None None = Err ValueError /\
    forall n, von_rvs_call [mu; kappa] None None (Some n) = Err TypeError) /\
  exists mu kappa, von_ok mu kappa = false /\ von_rvs_call [] (Some mu) (Some kappa) None = Ok (mu, kappa, None) /\
    forall u rest, von_rvs mu kappa (u :: rest) = Some (2 * PI * u).
Proof.
  split; [intros mu kappa; split; reflexivity|]. exists 0, (-1). split; [|split; [reflexivity|]].
  - unfold von_ok. rewrite (proj2 (Rltb_false 0 (-1))) by lra. apply andb_false_r.
  - intros u rest. unfold von_rvs. cbv zeta. rewrite (proj2 (Rleb_true (-1) _)) by lra. reflexivity.
Qed.
Print Assumptions C118_refuted.
Example C118_example : von_ok (PI / 3) 2 = true /\ von_rvs_call [] (Some (PI / 3)) (Some 2) (Some 5) = Ok (PI / 3, 2, Some 5).
Proof. exact (conj ex_von eq_refl). Qed.
