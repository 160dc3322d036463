(** C202-C208: the fits of cardioid, wrapcauchy and triangular, and three samplers. *)
From Coq Require Import String.
From Verif Require Import Prelude CircleSpec IntSpec DescModel CorrModel DistModel DistSpec FcModel FcSpec FcProofs Fc2Proofs Fc3Proofs Fc4Proofs FcEx.
Import ListNotations.
Open Scope R_scope.
Open Scope list_scope.

(** ** C202: cardioid.fit(method="moments") *)
Theorem C202_moments : forall minimize method s mu rho ll n g, lower method = "moments"%string -> car_fit minimize method s = Ok (mu, rho, ll, n, g) ->
  let W := Rsum (map snd s) in let C := Rsum (map (fun d => snd d * cos (fst d)) s) / W in let S := Rsum (map (fun d => snd d * sin (fst d)) s) / W in
  let r := sqrt (C * C + S * S) in
  car_ok mu rho = true /\ rho = Rmin r (1 / 2) /\ (/ 10 ^ 12 < r -> C = r * cos mu /\ S = r * sin mu) /\
  (/ 10 ^ 12 < r <= 1 / 2 -> trig_moment_of (car_pdf mu rho) 1 C S) /\
  n = W ^ 2 / Rsum (map (fun d => snd d ^ 2) s) /\
  ((forall d, In d s -> 0 < car_pdf mu rho (fst d)) -> ll = Fin (loglik (car_pdf mu rho) s)) /\ ((exists d, In d s /\ car_pdf mu rho (fst d) = 0) -> ll = NInf).
Proof. exact car_fit_moments_spec. Qed.
Print Assumptions C202_moments.
Theorem C202_total : forall minimize method s, s <> [] -> (forall p, In p s -> 0 <= snd p) -> 0 < Rsum (map snd s) ->
  (lower method = "moments"%string -> exists r, car_fit minimize method s = Ok r) /\
  (lower method = "mle"%string -> (exists r, car_fit minimize method s = Ok r) \/ car_fit minimize method s = Err RuntimeError /\ exists obj grad a b, minimize obj grad a b = None) /\
  (lower method <> "moments"%string -> lower method <> "mle"%string -> car_fit minimize method s = Err ValueError).
Proof. exact car_fit_total. Qed.
Print Assumptions C202_total.
Theorem C202_rejects : forall minimize method s, s = [] \/ (exists d, In d s /\ snd d < 0) \/ Rsum (map snd s) <= 0 -> car_fit minimize method s = Err ValueError /\ wc_fit minimize method s = Err ValueError.
Proof. exact fit_rejects. Qed.
Print Assumptions C202_rejects.
Example C202_example : forall minimize, exists mu ll n, car_fit minimize "Moments" [(0, 5); (PI, 3)] = Ok (mu, 1 / 4, ll, n, None) /\ cos mu = 1 /\ n = 32 / 17.
Proof. exact ex_car_moments. Qed.

(** ** C203: cardioid.fit(method="mle") cannot stop at a spurious optimum *)
Theorem C203_mle : forall minimize method s mu rho ll n g, box_min 0 (1 / 2) minimize -> lower method = "mle"%string -> car_fit minimize method s = Ok (mu, rho, ll, n, g) ->
  car_ok mu rho = true /\ n = Rsum (map snd s) ^ 2 / Rsum (map (fun d => snd d ^ 2) s) /\
  ((forall d, In d s -> 0 < car_pdf mu rho (fst d)) -> ll = Fin (loglik (car_pdf mu rho) s)) /\ ((exists d, In d s /\ car_pdf mu rho (fst d) = 0) -> ll = NInf) /\
  match g with
  | None => rho = 0 /\ near_mle car_pdf (fun m r => 0 <= r <= 1 / 2) s mu rho (Rsum (map snd s) / 10 ^ 12)
  | Some g => (0 < rho -> (forall d, In d s -> 0 < car_pdf mu rho (fst d)) -> near_mle car_pdf (fun m r => 0 <= r <= 1 / 2) s mu rho (g * (1 + 1 / (2 * rho)))) /\
      forall mu0 rho0 b n0, car_fit minimize "moments" s = Ok (mu0, rho0, Fin b, n0, None) -> exists a, ll = Fin a /\ b <= a
  end.
Proof. exact car_fit_mle_spec. Qed.
Print Assumptions C203_mle.
Theorem C203_stationary : forall s mu rho g, (forall d, In d s -> 0 <= snd d) -> 0 < rho <= 1 / 2 -> (forall d, In d s -> 0 < car_pdf mu rho (fst d)) ->
  derivable_pt_lim (fun m => loglik (car_pdf m rho) s) mu 0 -> derivable_pt_lim (fun r => loglik (car_pdf mu r) s) rho g -> g = 0 \/ (rho = 1 / 2 /\ 0 <= g) ->
  near_mle car_pdf (fun m r => 0 <= r <= 1 / 2) s mu rho 0.
Proof. exact car_stationary. Qed.
Print Assumptions C203_stationary.
Example C203_example : box_min 0 (1 / 2) (ex_min 0 (1 / 2)) /\ (exists r, car_fit (ex_min 0 (1 / 2)) "MLE" [(0, 5); (PI, 3)] = Ok r) /\
  (forall d, In d [(0, 5); (PI, 3)] -> 0 < car_pdf 0 (1 / 8) (fst d)) /\
  derivable_pt_lim (fun m => loglik (car_pdf m (1 / 8)) [(0, 5); (PI, 3)]) 0 0 /\ derivable_pt_lim (fun r => loglik (car_pdf 0 r) [(0, 5); (PI, 3)]) (1 / 8) 0.
Proof. exact (conj (ex_min_ok 0 (1 / 2)) (conj ex_car_mle ex_car_stationary)). Qed.

(** ** C204: wrapcauchy.fit(method="moments") *)
(** Missing: the log-likelihood when the squared distance of an observation to the fitted pole is below the code's floor 1e-15. *)
Theorem C204_partial : forall minimize method s mu rho ll n g, In (lower method) ["moments"; "analytical"]%string -> wc_fit minimize method s = Ok (mu, rho, ll, n, g) ->
  let W := Rsum (map snd s) in let C := Rsum (map (fun d => snd d * cos (fst d)) s) / W in let S := Rsum (map (fun d => snd d * sin (fst d)) s) / W in
  let r := sqrt (C * C + S * S) in
  wc_ok mu rho = true /\ rho = Rmin r (1 - / 10 ^ 12) /\ (/ 10 ^ 12 < r -> C = r * cos mu /\ S = r * sin mu) /\
  (/ 10 ^ 12 < r <= 1 - / 10 ^ 12 -> trig_moment_of (wc_pdf mu rho) 1 C S) /\
  n = W ^ 2 / Rsum (map (fun d => snd d ^ 2) s) /\
  ((forall d, In d s -> / 10 ^ 15 <= 1 + rho ^ 2 - 2 * rho * cos (fst d - mu)) -> ll = Fin (loglik (wc_pdf mu rho) s)).
Proof. exact wc_fit_moments_spec. Qed.
Print Assumptions C204_partial.
(** A single observation: the reported log-likelihood is below that of the fitted density. *)
Theorem C204_refuted : exists s, forall minimize, exists mu rho v n, wc_fit minimize "moments" s = Ok (mu, rho, Fin v, n, None) /\ wc_ok mu rho = true /\ v < loglik (wc_pdf mu rho) s.
Proof. exact wc_fit_refuted. Qed.
Print Assumptions C204_refuted.
Theorem C204_total : forall minimize method s, s <> [] -> (forall p, In p s -> 0 <= snd p) -> 0 < Rsum (map snd s) ->
  (In (lower method) ["moments"; "analytical"]%string -> exists r, wc_fit minimize method s = Ok r) /\
  (In (lower method) ["mle"; "numerical"]%string -> (exists r, wc_fit minimize method s = Ok r) \/ wc_fit minimize method s = Err RuntimeError /\ exists obj grad a b, minimize obj grad a b = None) /\
  (~ In (lower method) ["moments"; "analytical"; "mle"; "numerical"]%string -> wc_fit minimize method s = Err ValueError).
Proof. exact wc_fit_total. Qed.
Print Assumptions C204_total.
Example C204_example : (forall minimize, exists r, wc_fit minimize "Analytical" [(0, 8 / 5); (PI / 2, 1); (- (PI / 2), 1)] = Ok r) /\ In (lower "Analytical") ["moments"; "analytical"]%string.
Proof. split; [exact ex_wc_moments|right; left; reflexivity]. Qed.

(** ** C205: wrapcauchy.fit(method="mle"): a stationary point is the global maximum *)
Theorem C205_stationary : forall s mu rho, (forall d, In d s -> 0 <= snd d) -> 0 < rho < 1 ->
  derivable_pt_lim (fun m => loglik (wc_pdf m rho) s) mu 0 -> derivable_pt_lim (fun r => loglik (wc_pdf mu r) s) rho 0 ->
  near_mle wc_pdf (fun m r => 0 <= r < 1) s mu rho 0.
Proof. exact wc_stationary. Qed.
Print Assumptions C205_stationary.
Theorem C205_mle : forall minimize method s mu rho ll n g, box_min (/ 10 ^ 9) (1 - / 10 ^ 9) minimize -> In (lower method) ["mle"; "numerical"]%string -> wc_fit minimize method s = Ok (mu, rho, ll, n, g) ->
  wc_ok mu rho = true /\ / 10 ^ 9 <= rho <= 1 - / 10 ^ 9 /\ n = Rsum (map snd s) ^ 2 / Rsum (map (fun d => snd d ^ 2) s) /\
  ((forall d, In d s -> / 10 ^ 15 <= 1 + rho ^ 2 - 2 * rho * cos (fst d - mu)) ->
     ll = Fin (loglik (wc_pdf mu rho) s) /\ (g = Some 0 -> near_mle wc_pdf (fun m r => 0 <= r < 1) s mu rho 0)) /\
  forall mu0 rho0 ll0 n0, wc_fit minimize "moments" s = Ok (mu0, rho0, ll0, n0, None) -> / 10 ^ 3 <= rho0 <= 1 - / 10 ^ 3 -> exists a b, ll = Fin a /\ ll0 = Fin b /\ b <= a.
Proof. exact wc_fit_mle_spec. Qed.
Print Assumptions C205_mle.
Example C205_example : box_min (/ 10 ^ 9) (1 - / 10 ^ 9) ex_min2 /\ (exists ll n, wc_fit ex_min2 "numerical" [(0, 8 / 5); (PI / 2, 1); (- (PI / 2), 1)] = Ok (0, 1 / 2, ll, n, Some 0)) /\
  derivable_pt_lim (fun m => loglik (wc_pdf m (1 / 2)) [(0, 8 / 5); (PI / 2, 1); (- (PI / 2), 1)]) 0 0 /\ derivable_pt_lim (fun r => loglik (wc_pdf 0 r) [(0, 8 / 5); (PI / 2, 1); (- (PI / 2), 1)]) (1 / 2) 0.
Proof. exact (conj ex_min2_ok (conj ex_wc_mle ex_wc_stationary)). Qed.

(** ** C206: what triangular.fit reports *)
(** [tri_at r x] is the density with parameter r at the angle x. *)
Theorem C206_density : forall r x, tri_ok r = true -> public_pdf (tri_ok r) (tri_pdf r) x = Fin (tri_at r x).
Proof. exact tri_at_public. Qed.
Print Assumptions C206_density.
Theorem C206_info : forall root method s rho ll se n,
  (0 < tri_score s 0 -> tri_score s tri_hi < 0 -> 0 <= root (tri_score s) 0 tri_hi <= tri_hi /\ tri_score s (root (tri_score s) 0 tri_hi) = 0) ->
  tri_fit root method s = Ok (rho, ll, se, n) ->
  tri_ok rho = true /\ n = Rsum (map snd s) ^ 2 / Rsum (map (fun d => snd d ^ 2) s) /\
  ((forall d, In d s -> 0 < tri_at rho (fst d)) ->
     ll = Fin (loglik (tri_at rho) s) /\
     exists L1 I, (forall r, (forall d, In d s -> 0 < tri_at r (fst d)) -> derivable_pt_lim (fun r => loglik (tri_at r) s) r (L1 r)) /\ derivable_pt_lim L1 rho (- I) /\ 0 <= I /\ (0 < I -> se = Fin (1 / sqrt I)) /\ (I = 0 -> se = NaN)) /\
  ((exists d, In d s /\ 0 < snd d /\ tri_at rho (fst d) = 0) -> (forall d, In d s -> 0 < snd d) -> ll = NInf /\ se = Fin 0).
Proof. exact tri_fit_spec. Qed.
Print Assumptions C206_info.
Theorem C206_moments : forall root s rho ll se n, tri_fit root "moments" s = Ok (rho, ll, se, n) ->
  let c := Rsum (map (fun d => snd d * cos (fst d)) s) / Rsum (map snd s) in
  rho = Rmin (Rmax c 0) (4 / PI ^ 2) /\ (0 <= c <= 4 / PI ^ 2 -> trig_moment_of (tri_at rho) 1 c 0).
Proof. exact tri_fit_mom. Qed.
Print Assumptions C206_moments.
Theorem C206_rejects : forall root method s, (exists d, In d s /\ snd d < 0) \/ Rsum (map snd s) <= 0 -> tri_fit root method s = Err ValueError.
Proof. exact tri_fit_checks. Qed.
Print Assumptions C206_rejects.
Example C206_example : (forall root, exists ll se n, tri_fit root "moments" [(0, 1); (PI / 2, 3)] = Ok (1 / 4, ll, se, n)) /\ forall d, In d [(0, 1); (PI / 2, 3)] -> 0 < tri_at (1 / 4) (fst d).
Proof. exact (conj ex_tri_moments ex_tri_pos). Qed.

(** ** C207: the samplers of circularuniform, triangular and cardioid *)
Theorem C207_circularuniform : samples_from cu_rvs cu_pdf.
Proof. exact cu_sampler. Qed.
Print Assumptions C207_circularuniform.
Theorem C207_triangular : forall rho u, tri_ok rho = true -> 0 < u < 1 -> exists x p, tri_rvs (Some rho) u = Ok x /\ 0 <= x <= 2 * PI /\ integral (tri_pdf rho) 0 x p /\ Rabs (p - u) <= / 10 ^ 12 /\ (/ 10 ^ 12 < rho -> u <= 1 - / 10 ^ 15 -> p = u).
Proof. exact tri_sampler. Qed.
Print Assumptions C207_triangular.
Theorem C207_cardioid : forall mu rho u v, 0 <= rho <= 1 / 2 -> 0 <= u <= 1 -> 0 <= v <= 2 * PI ->
  exists x p, car_rvs (Some mu) (Some rho) u v = Ok x /\ 0 <= x <= 2 * PI /\ integral (car_pdf mu rho) 0 x p /\
    (rho <= / 10 ^ 15 -> Rabs (p - v / (2 * PI)) <= / 10 ^ 15) /\ (/ 10 ^ 15 < rho -> Rabs (p - u) <= / 2 ^ 32).
Proof. exact car_sampler. Qed.
Print Assumptions C207_cardioid.
Example C207_example : tri_ok (1 / 4) = true /\ 0 < 1 / 3 < 1 /\ 0 <= 1 / 4 <= 1 / 2.
Proof. split; [exact ex_tri_ok|lra]. Qed.

(** ** C208: requests outside the documented domain *)
(** Cardioid refuses them. *)
Theorem C208_partial : forall mu rho u v, (mu = None \/ rho = None \/ exists r, rho = Some r /\ ~ 0 <= r <= 1 / 2) -> car_rvs mu rho u v = Err ValueError.
Proof. exact car_rvs_rejects. Qed.
Print Assumptions C208_partial.
(** triangular.rvs draws from parameters that have no density, ... *)
Theorem C208_refuted_rho : exists rho, tri_ok rho = false /\ forall u, exists x, tri_rvs (Some rho) u = Ok x.
Proof. exact tri_rvs_unchecked. Qed.
Print Assumptions C208_refuted_rho.
(** ... and triangular.fit accepts any method name. *)
Theorem C208_refuted_method : exists root method s r, method <> "mle"%string /\ method <> "moments"%string /\ tri_fit root method s = Ok r.
Proof. exact tri_fit_any_method. Qed.
Print Assumptions C208_refuted_method.
Example C208_example : car_rvs (Some 0) (Some (3 / 4)) 0 0 = Err ValueError /\ exists r : R, Some (3 / 4) = Some r /\ ~ 0 <= r <= 1 / 2.
Proof. assert (E : exists r : R, Some (3 / 4) = Some r /\ ~ 0 <= r <= 1 / 2) by (exists (3 / 4); split; [reflexivity|lra]). split; [|exact E]. apply C208_partial. right. right. exact E. Qed.
