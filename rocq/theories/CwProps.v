(** C196-C201: cartwright. *)
From Verif Require Import Prelude CircleSpec IntSpec DescModel DistModel DistSpec CwModel CwSpec CwProofs Cw2Proofs Cw3Proofs Cw4Proofs CwEx.

(** ** C196: the power-of-cosine law is a density with mean resultant length 1 / (1 + zeta) *)
Theorem C196_density : forall g mu zeta, is_gamma g -> cw_ok mu zeta = true -> pdf_is_density (public_pdf (cw_ok mu zeta) (cw_pdf g mu zeta)).
Proof. exact cw_density. Qed.
Print Assumptions C196_density.
Theorem C196_moment : forall g mu zeta, is_gamma g -> cw_ok mu zeta = true -> trig_moment_of (cw_pdf g mu zeta) 1 (1 / (1 + zeta) * cos mu) (1 / (1 + zeta) * sin mu).
Proof. exact cw_moment. Qed.
Print Assumptions C196_moment.
Example C196_example : (exists g l d beta I J, is_gamma g /\ is_gammaln l g /\ is_digamma d g /\ is_betainc beta I /\ is_betaincinv I J) /\ cw_ok (PI / 3) (1 / 2) = true.
Proof. exact (conj ex_special ex_cw_ok). Qed.

(** ** C197: the distribution function *)
(** For no admissible parameters: the last 6e-5 of the turn has cdf 1. *)
Theorem C197_refuted : forall g beta I mu zeta, is_gamma g -> cw_ok mu zeta = true ->
  ~ describes (public_pdf (cw_ok mu zeta) (cw_pdf g mu zeta)) (public_cdf (cw_ok mu zeta) (cw_cdf g beta I mu zeta)).
Proof. exact cw_not_describes. Qed.
Print Assumptions C197_refuted.
(** What holds.  Missing: the last 9e-5 of the turn. *)
Theorem C197_partial : forall g beta I mu zeta, is_gamma g -> is_betainc beta I -> cw_ok mu zeta = true ->
  exists f F, (forall x, public_pdf (cw_ok mu zeta) (cw_pdf g mu zeta) x = Fin (f x)) /\ is_cdf F f /\
    forall x, 0 <= x <= 2 * PI - 9 / 100000 -> public_cdf (cw_ok mu zeta) (cw_cdf g beta I mu zeta) x = Fin (F x).
Proof. exact cw_cdf_law. Qed.
Print Assumptions C197_partial.
Example C197_example : (exists g l d beta I J, is_gamma g /\ is_gammaln l g /\ is_digamma d g /\ is_betainc beta I /\ is_betaincinv I J) /\ cw_ok (PI / 3) (1 / 2) = true.
Proof. exact (conj ex_special ex_cw_ok). Qed.

(** ** C198: the quantile function *)
Theorem C198_quantile : forall g beta I J mu zeta q, is_gamma g -> is_betainc beta I -> is_betaincinv I J -> cw_ok mu zeta = true -> / 10 ^ 12 < q < 1 - / 10 ^ 12 ->
  exists x, public_ppf (cw_ok mu zeta) (cw_ppf g beta I J mu zeta) q = Fin x /\ 0 <= x < 2 * PI /\ integral (cw_pdf g mu zeta) 0 x q.
Proof. exact cw_ppf_law. Qed.
Print Assumptions C198_quantile.
Example C198_example : (exists g l d beta I J, is_gamma g /\ is_gammaln l g /\ is_digamma d g /\ is_betainc beta I /\ is_betaincinv I J) /\ cw_ok (PI / 3) (1 / 2) = true /\ / 10 ^ 12 < 1 / 3 < 1 - / 10 ^ 12.
Proof. split; [exact ex_special|]. split; [exact ex_cw_ok|lra]. Qed.

(** ** C199: the sampler *)
Theorem C199_law : forall g beta I mu zeta t u, is_gamma g -> is_betainc beta I -> 0 < zeta -> 0 <= t <= 1 ->
  exists d th, cw_rvs mu zeta t u = Ok th /\ 0 <= th < 2 * PI /\ same_dir th (mu + d) /\ (u < 1 / 2 -> - PI <= d <= 0) /\ (1 / 2 <= u -> 0 <= d <= PI) /\
    forall p, 0 <= p <= PI ->
      (Rabs d <= p <-> t <= sin (p / 2) ^ 2) /\
      integral (cw_pdf g mu zeta) mu (mu + p) (1 / 2 * I (1 / 2) (1 / zeta + 1 / 2) (sin (p / 2) ^ 2)) /\
      integral (cw_pdf g mu zeta) (mu - p) mu (1 / 2 * I (1 / 2) (1 / zeta + 1 / 2) (sin (p / 2) ^ 2)).
Proof. exact cw_rvs_law. Qed.
Print Assumptions C199_law.
Theorem C199_rejects : forall mu zeta t u, zeta <= 0 -> cw_rvs mu zeta t u = Err ValueError.
Proof. exact cw_rvs_rejects. Qed.
Print Assumptions C199_rejects.
Example C199_example : (exists g l d beta I J, is_gamma g /\ is_gammaln l g /\ is_digamma d g /\ is_betainc beta I /\ is_betaincinv I J) /\ 0 < 1 / 2 /\ 0 <= 1 / 3 <= 1.
Proof. split; [exact ex_special|lra]. Qed.

(** ** C200: the likelihood the fit maximises *)
(** Missing: observations within 5e-8 of the point opposite to mu, where the code's floor 1e-15 acts. *)
Theorem C200_partial : forall l g s mu zeta, is_gamma g -> is_gammaln l g -> 0 < zeta -> (forall p, In p s -> / 10 ^ 15 <= 1 + cos (fst p - mu)) ->
  cw_nll l s mu zeta = Fin (- loglik (cw_pdf g mu zeta) s).
Proof. exact cw_nll_lik. Qed.
Print Assumptions C200_partial.
(** An observation of density 0 has a finite log-likelihood. *)
Theorem C200_refuted : exists x mu zeta, 0 < zeta /\ forall l g, cw_pdf g mu zeta x = 0 /\ exists v, cw_nll l [(x, 1)] mu zeta = Fin v.
Proof. exact cw_nll_refuted. Qed.
Print Assumptions C200_refuted.
Theorem C200_gradient : forall l d g s mu zeta, is_gamma g -> is_gammaln l g -> is_digamma d g -> 0 < zeta -> (forall p, In p s -> / 10 ^ 15 < 1 + cos (fst p - mu)) ->
  is_gradient (cw_nll l s) mu zeta (cw_grad d s mu zeta).
Proof. exact cw_gradient. Qed.
Print Assumptions C200_gradient.
Example C200_example : (exists g l d beta I J, is_gamma g /\ is_gammaln l g /\ is_digamma d g /\ is_betainc beta I /\ is_betaincinv I J) /\ 0 < 1 / 2 /\ forall p, In p [(0, 1); (PI / 2, 2)] -> / 10 ^ 15 < 1 + cos (fst p - 0).
Proof. split; [exact ex_special|]. split; [lra|exact ex_cw_far]. Qed.

(** ** C201: the fits *)
Theorem C201_moments : forall l g s mu zeta ll n, is_gamma g -> is_gammaln l g -> cw_fit_moments l s = Ok (mu, zeta, ll, n) ->
  let W := Rsum (map snd s) in let C := Rsum (map (fun d => snd d * cos (fst d)) s) / W in let S := Rsum (map (fun d => snd d * sin (fst d)) s) / W in
  let r := sqrt (C * C + S * S) in
  0 <= mu < 2 * PI /\ / 10 ^ 6 <= zeta <= 10 ^ 6 /\
  (/ 10 ^ 12 < r -> C = r * cos mu /\ S = r * sin mu) /\
  (1 / (1 + 10 ^ 6) <= r <= 1 / (1 + / 10 ^ 6) -> trig_moment_of (cw_pdf g mu zeta) 1 C S) /\
  (r < 1 / (1 + 10 ^ 6) -> zeta = 10 ^ 6) /\ (1 / (1 + / 10 ^ 6) < r -> zeta = / 10 ^ 6) /\
  n = W ^ 2 / Rsum (map (fun d => snd d ^ 2) s) /\
  ((forall d, In d s -> / 10 ^ 15 <= 1 + cos (fst d - mu)) -> ll = Fin (loglik (cw_pdf g mu zeta) s)).
Proof. exact cw_fit_moments_spec. Qed.
Print Assumptions C201_moments.
Theorem C201_total : forall l s, s <> [] -> (forall p, In p s -> 0 <= snd p) -> 0 < Rsum (map snd s) -> exists r, cw_fit_moments l s = Ok r.
Proof. exact cw_fit_total. Qed.
Print Assumptions C201_total.
Theorem C201_rejects : forall l minimize s, s = [] \/ (exists d, In d s /\ snd d < 0) \/ Rsum (map snd s) <= 0 -> cw_fit_moments l s = Err ValueError /\ cw_fit_mle l minimize s = Err ValueError.
Proof. exact cw_fit_rejects. Qed.
Print Assumptions C201_rejects.
Theorem C201_mle : forall l g minimize s mu zeta ll n, is_gamma g -> is_gammaln l g -> bounded_min minimize -> cw_fit_mle l minimize s = Ok (mu, zeta, ll, n) ->
  0 <= mu <= 2 * PI /\ / 10 ^ 6 <= zeta <= 10 ^ 6 /\ n = Rsum (map snd s) ^ 2 / Rsum (map (fun d => snd d ^ 2) s) /\
  ((forall d, In d s -> / 10 ^ 15 <= 1 + cos (fst d - mu)) -> ll = Fin (loglik (cw_pdf g mu zeta) s)) /\
  exists mu0 zeta0 ll0 n0, cw_fit_moments l s = Ok (mu0, zeta0, ll0, n0) /\
    (/ 10 ^ 3 <= zeta0 <= 10 ^ 4 -> exists a b, ll = Fin a /\ ll0 = Fin b /\ b <= a).
Proof. exact cw_fit_mle_spec. Qed.
Print Assumptions C201_mle.
Theorem C201_failure : forall l minimize s, (forall obj a b, minimize obj a b = None) -> s <> [] -> (forall p, In p s -> 0 <= snd p) -> 0 < Rsum (map snd s) -> cw_fit_mle l minimize s = Err RuntimeError.
Proof. exact cw_fit_mle_fails. Qed.
Print Assumptions C201_failure.
Example C201_example : (exists g l d beta I J, is_gamma g /\ is_gammaln l g /\ is_digamma d g /\ is_betainc beta I /\ is_betaincinv I J) /\
  (forall l, exists ll, cw_fit_moments l [(0, 3); (PI, 1)] = Ok (0, 1, ll, 16 / 10)) /\
  exists minimize, bounded_min minimize /\ exists l, forall s, s <> [] -> (forall p, In p s -> 0 <= snd p) -> 0 < Rsum (map snd s) -> exists r, cw_fit_mle l minimize s = Ok r.
Proof. exact (conj ex_special (conj ex_cw_fit ex_bounded)). Qed.
