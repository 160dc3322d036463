(** Property theorems for the closed-form distributions (C57-C59, C61, C63, C107-C109). *)
From Verif Require Import Prelude NpModel NpProofs CircleSpec IntSpec IntProofs DistModel DistSpec DistProofs Dist2Proofs Dist3Proofs Dist4Proofs
  Dist5Proofs Dist6Proofs Dist7Proofs Dist8Proofs DistEx.

(** ** C57: densities *)
Theorem C57_circularuniform : pdf_is_density (public_pdf true cu_pdf).
Proof. exact (describes_density _ _ cu_describes). Qed.
Print Assumptions C57_circularuniform.
Theorem C57_triangular : forall rho, tri_ok rho = true -> pdf_is_density (public_pdf (tri_ok rho) (tri_pdf rho)).
Proof. exact (fun rho H => describes_density _ _ (tri_describes rho H)). Qed.
Print Assumptions C57_triangular.
Theorem C57_cardioid : forall mu rho, car_ok mu rho = true -> pdf_is_density (public_pdf (car_ok mu rho) (car_pdf mu rho)).
Proof. exact (fun mu rho H => describes_density _ _ (car_describes mu rho H)). Qed.
Print Assumptions C57_cardioid.
Theorem C57_wrapcauchy : forall mu rho, wc_ok mu rho = true -> pdf_is_density (public_pdf (wc_ok mu rho) (wc_pdf mu rho)).
Proof. exact wc_density. Qed.
Print Assumptions C57_wrapcauchy.
Example C57_example : tri_ok (1 / 4) = true /\ car_ok (PI / 3) (1 / 3) = true /\ wc_ok (PI / 3) (1 / 3) = true.
Proof. exact (conj ex_tri (conj ex_car ex_wc)). Qed.

(** ** C58: the cdf is the integral of the pdf *)
Theorem C58_circularuniform : describes (public_pdf true cu_pdf) (public_cdf true cu_cdf).
Proof. exact cu_describes. Qed.
Print Assumptions C58_circularuniform.
Theorem C58_triangular : forall rho, tri_ok rho = true ->
  describes (public_pdf (tri_ok rho) (tri_pdf rho)) (public_cdf (tri_ok rho) (tri_cdf rho)).
Proof. exact tri_describes. Qed.
Print Assumptions C58_triangular.
Theorem C58_cardioid : forall mu rho, car_ok mu rho = true ->
  describes (public_pdf (car_ok mu rho) (car_pdf mu rho)) (public_cdf (car_ok mu rho) (car_cdf mu rho)).
Proof. exact car_describes. Qed.
Print Assumptions C58_cardioid.
(** wrapcauchy: for no admissible parameter (the last 6e-5 of the turn has cdf 1). *)
Theorem C58_wrapcauchy_refuted : forall mu rho, wc_ok mu rho = true ->
  ~ describes (public_pdf (wc_ok mu rho) (wc_pdf mu rho)) (public_cdf (wc_ok mu rho) (wc_cdf mu rho)).
Proof. exact wc_not_describes. Qed.
Print Assumptions C58_wrapcauchy_refuted.
(** What holds of wrapcauchy: away from 2 pi and below 1 - 1e-12 the cdf is exact.  Missing:
    the last 9e-5 of the turn, the last 1e-12 of probability, rho below 2^-1022 or above
    1 - 1e-15. *)
Theorem C58_wrapcauchy_partial : forall mu rho, wc_ok mu rho = true -> ftiny <= rho <= 1 - / 10 ^ 15 ->
  exists f F, (forall x, public_pdf (wc_ok mu rho) (wc_pdf mu rho) x = Fin (f x)) /\ is_cdf F f /\
    forall x, 0 <= x <= 2 * PI - 9 / 100000 -> F x < 1 - / 10 ^ 12 ->
      public_cdf (wc_ok mu rho) (wc_cdf mu rho) x = Fin (F x).
Proof. exact wc_cdf_partial. Qed.
Print Assumptions C58_wrapcauchy_partial.
Example C58_example : wc_ok (PI / 3) (1 / 3) = true /\ ftiny <= 1 / 3 <= 1 - / 10 ^ 15.
Proof. exact (conj ex_wc ex_wc_range). Qed.

(** ** C59: ppf and cdf are inverse *)
Theorem C59_circularuniform : forall q, 0 <= q <= 1 ->
  exists x, public_ppf true cu_ppf q = Fin x /\ 0 <= x <= 2 * PI /\ public_cdf true cu_cdf x = Fin q.
Proof. exact cu_inverse. Qed.
Print Assumptions C59_circularuniform.
Theorem C59_circularuniform_back : forall x, 0 <= x < 2 * PI ->
  exists q, public_cdf true cu_cdf x = Fin q /\ 0 <= q <= 1 /\ public_ppf true cu_ppf q = Fin x.
Proof. exact cu_inverse2. Qed.
Print Assumptions C59_circularuniform_back.
(** triangular: within 1e-12 always, exactly when rho is not treated as 0 and q is not
    clipped below 2 pi. *)
Theorem C59_triangular : forall rho q, tri_ok rho = true -> 0 <= q <= 1 ->
  exists x p, public_ppf (tri_ok rho) (tri_ppf rho) q = Fin x /\ 0 <= x <= 2 * PI /\
    public_cdf (tri_ok rho) (tri_cdf rho) x = Fin p /\ Rabs (p - q) <= / 10 ^ 12 /\
    (/ 10 ^ 12 < rho -> q <= 1 - / 10 ^ 15 -> p = q).
Proof. exact tri_inverse. Qed.
Print Assumptions C59_triangular.
Theorem C59_triangular_back : forall rho x, tri_ok rho = true -> / 10 ^ 12 < rho -> 0 <= x <= 2 * PI - feps ->
  exists q, public_cdf (tri_ok rho) (tri_cdf rho) x = Fin q /\ 0 <= q <= 1 /\
    public_ppf (tri_ok rho) (tri_ppf rho) q = Fin x.
Proof. exact tri_inverse2. Qed.
Print Assumptions C59_triangular_back.
(** cardioid: Newton with the bisection fallback solves cdf(x) = q to 2^-32 for every
    parameter, including the corner rho = 1/2 where the density vanishes. *)
Theorem C59_cardioid : forall mu rho q, car_ok mu rho = true -> 0 <= q <= 1 ->
  exists x p, public_ppf (car_ok mu rho) (car_ppf mu rho) q = Fin x /\ 0 <= x <= 2 * PI /\
    public_cdf (car_ok mu rho) (car_cdf mu rho) x = Fin p /\ Rabs (p - q) <= / 2 ^ 32.
Proof. exact car_inverse. Qed.
Print Assumptions C59_cardioid.
(** wrapcauchy: wrong by 1/4 at mu = 0, rho = 1 - 1e-5, q = 3/4. *)
Theorem C59_wrapcauchy_refuted : exists mu rho q x,
  wc_ok mu rho = true /\ 0 < q < 1 /\
  public_ppf (wc_ok mu rho) (wc_ppf mu rho) q = Fin x /\
  public_cdf (wc_ok mu rho) (wc_cdf mu rho) x = Fin (q + 1 / 4).
Proof. exact wc_roundtrip_fails. Qed.
Print Assumptions C59_wrapcauchy_refuted.
(** What holds of wrapcauchy.  Missing: quantiles in the last 9e-5 of the turn, q within
    1e-15 of 0 or 2e-12 of 1. *)
Theorem C59_wrapcauchy_partial : forall mu rho q, wc_ok mu rho = true -> ftiny <= rho <= 1 - / 10 ^ 15 ->
  / 10 ^ 15 < q < 1 - 2 / 10 ^ 12 ->
  exists x, public_ppf (wc_ok mu rho) (wc_ppf mu rho) q = Fin x /\ 0 <= x < 2 * PI /\
    (x <= 2 * PI - 9 / 100000 ->
     exists v, public_cdf (wc_ok mu rho) (wc_cdf mu rho) x = Fin v /\ Rabs (v - q) <= / 10 ^ 15).
Proof. exact wc_roundtrip. Qed.
Print Assumptions C59_wrapcauchy_partial.
Example C59_example : tri_ok (1 / 4) = true /\ car_ok (PI / 3) (1 / 3) = true /\ wc_ok (PI / 3) (1 / 3) = true /\
  ftiny <= 1 / 3 <= 1 - / 10 ^ 15.
Proof. exact (conj ex_tri (conj ex_car (conj ex_wc ex_wc_range))). Qed.

(** ** C61: wrapcauchy's cdf is non-decreasing *)
Theorem C61_refuted : exists mu rho x1 x2 v1 v2,
  wc_ok mu rho = true /\ 0 <= x1 /\ x1 <= x2 /\ x2 <= 2 * PI /\
  public_cdf (wc_ok mu rho) (wc_cdf mu rho) x1 = Fin v1 /\
  public_cdf (wc_ok mu rho) (wc_cdf mu rho) x2 = Fin v2 /\
  1 / 2 <= v1 /\ v2 = 0.
Proof. exact wc_not_monotone. Qed.
Print Assumptions C61_refuted.
(** It is non-decreasing as long as more than 1e-12 of the probability lies beyond x2 and x2
    is not in the last 9e-5 of the turn. *)
Theorem C61_partial : forall mu rho x1 x2 v1 v2, wc_ok mu rho = true -> ftiny <= rho <= 1 - / 10 ^ 15 ->
  0 <= x1 -> x1 <= x2 -> x2 <= 2 * PI - 9 / 100000 ->
  public_cdf (wc_ok mu rho) (wc_cdf mu rho) x1 = Fin v1 ->
  public_cdf (wc_ok mu rho) (wc_cdf mu rho) x2 = Fin v2 ->
  (exists f, (forall x, public_pdf (wc_ok mu rho) (wc_pdf mu rho) x = Fin (f x)) /\
     exists p, integral f x2 (2 * PI) p /\ / 10 ^ 12 < p) ->
  v1 <= v2.
Proof. exact wc_monotone_partial. Qed.
Print Assumptions C61_partial.
Example C61_example : wc_ok (PI / 3) (1 / 3) = true /\ ftiny <= 1 / 3 <= 1 - / 10 ^ 15.
Proof. exact (conj ex_wc ex_wc_range). Qed.

(** ** C63: gradients *)
Theorem C63_cardioid : forall s mu rho, 0 < rho < 1 / 2 -> is_gradient (car_nll s) mu rho (car_grad s mu rho).
Proof. exact car_gradient. Qed.
Print Assumptions C63_cardioid.
Theorem C63_wrapcauchy : forall s mu rho, 0 < rho < 1 - / 10 ^ 7 -> is_gradient (wc_nll s) mu rho (wc_grad s mu rho).
Proof. exact wc_gradient. Qed.
Print Assumptions C63_wrapcauchy.
Example C63_example : 0 < 1 / 3 < 1 / 2 /\ 0 < 1 / 3 < 1 - / 10 ^ 7 /\
  fst (car_grad [(PI / 2, 1)] 0 (1 / 3)) = - (2 / 3).
Proof. exact ex_grad. Qed.

(** ** C107: the parameters are the trigonometric moments *)
Theorem C107_triangular : forall rho f, tri_ok rho = true ->
  (forall x, public_pdf (tri_ok rho) (tri_pdf rho) x = Fin (f x)) -> trig_moment_of f 1 rho 0.
Proof. exact tri_moment. Qed.
Print Assumptions C107_triangular.
Theorem C107_cardioid : forall mu rho f (n : nat), (1 <= n)%nat -> car_ok mu rho = true ->
  (forall x, public_pdf (car_ok mu rho) (car_pdf mu rho) x = Fin (f x)) ->
  let r := if Nat.eqb n 1 then rho else 0 in
  trig_moment_of f (Z.of_nat n) (r * cos (INR n * mu)) (r * sin (INR n * mu)).
Proof. exact car_moments. Qed.
Print Assumptions C107_cardioid.
Theorem C107_wrapcauchy : forall mu rho f n, wc_ok mu rho = true ->
  (forall x, public_pdf (wc_ok mu rho) (wc_pdf mu rho) x = Fin (f x)) ->
  trig_moment_of f (Z.of_nat n) (rho ^ n * cos (INR n * mu)) (rho ^ n * sin (INR n * mu)).
Proof. exact wc_moments. Qed.
Print Assumptions C107_wrapcauchy.
Example C107_example : exists f, (forall x, public_pdf (wc_ok (PI / 3) (1 / 3)) (wc_pdf (PI / 3) (1 / 3)) x = Fin (f x)).
Proof. destruct (wc_density _ _ ex_wc) as (f & H & _). exists f. exact H. Qed.

(** ** C108: wrapcauchy.rvs draws from wrapcauchy.pdf *)
Theorem C108_partial : forall mu rho v, wc_ok mu rho = true -> / 10 ^ 15 < rho <= 1 - 2 / 100000 ->
  exists f, (forall x, public_pdf (wc_ok mu rho) (wc_pdf mu rho) x = Fin (f x)) /\
    samples_from (fun u => wc_rvs mu rho u v) f /\ (forall u, 0 <= wc_rvs mu rho u v < 2 * PI).
Proof. exact wc_sampler. Qed.
Print Assumptions C108_partial.
(** rho = 1 - 1e-5, mu = 0: every draw is the same angle. *)
Theorem C108_refuted : exists mu rho, wc_ok mu rho = true /\
  (forall u v u' v', wc_rvs mu rho u v = wc_rvs mu rho u' v') /\
  forall f v, (forall x, public_pdf (wc_ok mu rho) (wc_pdf mu rho) x = Fin (f x)) ->
    ~ samples_from (fun u => wc_rvs mu rho u v) f.
Proof. exact wc_sampler_stuck. Qed.
Print Assumptions C108_refuted.
Example C108_example : wc_ok (PI / 3) (1 / 3) = true /\ / 10 ^ 15 < 1 / 3 <= 1 - 2 / 100000.
Proof. split; [exact ex_wc|]. pose proof tiny15. lra. Qed.

(** ** C109: triangular.fit maximises the likelihood *)
(** [root] is brentq on the score; it is assumed to return a zero of the score when the score
    changes sign. *)
Theorem C109_mle : forall root s est f,
  (0 < tri_score s 0 -> tri_score s tri_hi < 0 ->
   0 <= root (tri_score s) 0 tri_hi <= tri_hi /\ tri_score s (root (tri_score s) 0 tri_hi) = 0) ->
  tri_fit_mle root s = Ok est ->
  (forall r x, tri_ok r = true -> public_pdf (tri_ok r) (tri_pdf r) x = Fin (f r x)) ->
  tri_ok est = true /\ forall r, 0 <= r <= 4 / PI ^ 2 - / 10 ^ 12 -> loglik (f r) s <= loglik (f est) s.
Proof. exact tri_fit_loglik. Qed.
Print Assumptions C109_mle.
Example C109_example : tri_fit_mle ex_root ex_s = Ok (4 / (3 * PI ^ 2)) /\
  (0 < tri_score ex_s 0 -> tri_score ex_s tri_hi < 0 ->
   0 <= ex_root (tri_score ex_s) 0 tri_hi <= tri_hi /\ tri_score ex_s (ex_root (tri_score ex_s) 0 tri_hi) = 0).
Proof. exact ex_fit. Qed.
