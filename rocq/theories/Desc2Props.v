(** Properties C19-C25 and C74-C80 (pycircstat2/descriptive.py: medians, intervals,
    range, quantiles, higher moments).  Each theorem is closed by a proved lemma. *)
From Verif Require Import Prelude CircleSpec NpModel UtilsModel DescModel DescSpec DescApi
  Desc2Model Desc2Spec Desc3Proofs Desc4Proofs Desc5Proofs Desc2Proofs Desc6Proofs Desc7Proofs Desc2Ex
  Desc8Proofs.

(** C19.  Full statement: for every ungrouped sample.  Proved for angles given within
    one turn of each other and a resultant length below the early exit
    (1 - 1e-5 - 1e-12); false beyond one turn. *)
Theorem C19_deviation_median_partial : forall alpha, alpha <> [] -> within_turn alpha ->
  circ_r alpha None < 1 - (/ 100000 + / 1000000000000) ->
  exists m, circ_median alpha None (Some "deviation"%string) false "all"%string = Ok m /\
    (m = MNaN <-> forall a b, In a alpha -> In b alpha -> mean_arc5 alpha a = mean_arc5 alpha b) /\
    (m <> MNaN -> med_list m <> [] /\ forall x, In x (med_list m) <->
       exists a, 0 <= x < 2 * PI /\ same_dir x a /\ In a alpha /\
                 forall b, In b alpha -> mean_arc5 alpha a <= mean_arc5 alpha b).
Proof. exact deviation_median_least. Qed.
Print Assumptions C19_deviation_median_partial.
Example C19_example : circ_r [0; PI / 2; PI] None < 1 - (/ 100000 + / 1000000000000) /\
  within_turn [0; PI / 2; PI] /\ circ_median_default [0; PI / 2; PI] = Ok (MOne (PI / 2)).
Proof. exact ex19. Qed.
Theorem C19_deviation_median_refuted : exists alpha m a b,
  circ_r alpha None < 1 - (/ 100000 + / 1000000000000) /\
  circ_median alpha None (Some "deviation"%string) false "all"%string = Ok (MOne m) /\
  In a alpha /\ In b alpha /\ same_dir m a /\ mean_arc5 alpha b < mean_arc5 alpha a.
Proof. exact deviation_median_turns. Qed.
Print Assumptions C19_deviation_median_refuted.

(** C20 *)
Theorem C20_hdi_shortest : forall samples ci, samples <> [] -> 0 < ci < 1 ->
  exists lo hi L, compute_hdi samples ci = Ok (lo, hi) /\
    0 <= L < 2 * PI /\ same_dir hi (lo + L) /\ 0 <= lo < 2 * PI /\ 0 <= hi < 2 * PI /\
    (exists a, In a samples /\ same_dir lo a) /\ (exists b, In b samples /\ same_dir hi b) /\
    arc_holds samples lo L (hdi_window ci (length samples)) /\
    (forall lo' L', 0 <= L' -> arc_holds samples lo' L' (hdi_window ci (length samples)) -> L <= L').
Proof. exact hdi_spec. Qed.
Print Assumptions C20_hdi_shortest.
Example C20_example : [0; 1; 4; 6] <> [] /\ 0 < 1/2 < 1 /\ hdi_window (1/2) (length [0; 1; 4; 6]) = 2%nat.
Proof. exact ex20. Qed.
Theorem C20_hdi_errors : forall samples ci,
  (samples = [] \/ ~ 0 < ci < 1) <-> compute_hdi samples ci = Err ValueError.
Proof. exact hdi_error. Qed.
Print Assumptions C20_hdi_errors.

(** C21 *)
Theorem C21_range_shortest_cover : forall alpha, alpha <> [] ->
  exists L, circ_range alpha = Ok L /\ least_cover alpha L /\ L <= 2 * PI * (1 - / INR (length alpha)).
Proof. exact circ_range_spec. Qed.
Print Assumptions C21_range_shortest_cover.
Example C21_example : circ_range [0; PI / 2] = Ok (PI / 2).
Proof. exact ex21. Qed.
Theorem C21_range_invariant :
  (forall alpha t, alpha <> [] -> circ_range (map (fun a => a + t) alpha) = circ_range alpha) /\
  (forall alpha, alpha <> [] -> circ_range (map Ropp alpha) = circ_range alpha) /\
  (forall alpha alpha', alpha <> [] -> turned alpha alpha' -> circ_range alpha' = circ_range alpha) /\
  (forall alpha alpha', alpha <> [] -> Permutation alpha alpha' -> circ_range alpha' = circ_range alpha).
Proof. exact circ_range_invariant. Qed.
Print Assumptions C21_range_invariant.

(** C22 *)
Theorem C22_approximate_contains : forall mean r n chi lb ub, 0 <= r ->
  ci_approximate mean r n chi = Ok (Some (lb, ub)) ->
  on_ccw_arc mean lb ub /\ (exists d, centred_arc mean d lb ub) /\
  0 <= lb < 2 * PI /\ 0 <= ub < 2 * PI.
Proof. exact ci_approximate_contains. Qed.
Print Assumptions C22_approximate_contains.
Theorem C22_approximate_wider : forall mean r n chi chi' lb ub lb' ub', 0 <= r <= 1 -> 0 <= chi ->
  chi <= chi' ->
  ci_approximate mean r n chi = Ok (Some (lb, ub)) -> ci_approximate mean r n chi' = Ok (Some (lb', ub')) ->
  exists d d', centred_arc mean d lb ub /\ centred_arc mean d' lb' ub' /\ d <= d'.
Proof. exact ci_approximate_wider. Qed.
Print Assumptions C22_approximate_wider.
Theorem C22_approximate_total : forall mean r n chi, 8 <= n -> 0 < chi -> 0 <= r <= 1 ->
  (sqrt (chi / (2 * n)) <= r -> exists p, ci_approximate mean r n chi = Ok (Some p)) /\
  (r < sqrt (chi / (2 * n)) -> ci_approximate mean r n chi = Err ValueError).
Proof. exact ci_approximate_total. Qed.
Print Assumptions C22_approximate_total.
Theorem C22_dispersion_contains : forall s mean z lb ub, 0 < z ->
  ci_dispersion s mean z = Ok (Some (lb, ub)) ->
  on_ccw_arc mean lb ub /\ (exists d, centred_arc mean d lb ub) /\
  0 <= lb < 2 * PI /\ 0 <= ub < 2 * PI.
Proof. exact ci_dispersion_contains. Qed.
Print Assumptions C22_dispersion_contains.
Theorem C22_dispersion_wider : forall s mean z z' lb ub lb' ub', 0 < z -> z <= z' ->
  ci_dispersion s mean z = Ok (Some (lb, ub)) -> ci_dispersion s mean z' = Ok (Some (lb', ub')) ->
  exists d d', centred_arc mean d lb ub /\ centred_arc mean d' lb' ub' /\ d <= d'.
Proof. exact ci_dispersion_wider. Qed.
Print Assumptions C22_dispersion_wider.
Example C22_example : (exists p, ci_approximate 1 (1/2) 10 (384/100) = Ok (Some p)) /\
  (exists p, ci_dispersion [(0, 20); (PI / 2, 20)] (PI / 4) (196/100) = Ok (Some p)).
Proof. exact ex22. Qed.

(** C23.  Full statement: no IndexError for any sample with n > 15.  False: the
    interval is found exactly when the upper position is not n. *)
Theorem C23_median_ci_refuted : exists alpha m, (15 < length alpha)%nat /\
  circ_median_default alpha = Ok (MOne m) /\
  forall z, 1.95 <= z <= 1.97 -> circ_median_ci alpha m z = Err IndexError.
Proof. exact median_ci_raises. Qed.
Print Assumptions C23_median_ci_refuted.
Theorem C23_median_ci_partial : forall alpha median z tie, (15 < length alpha)%nat ->
  0 <= z <= sqrt (INR (length alpha)) -> ties_median alpha median tie ->
  upper_index alpha median z tie <> Z.of_nat (length alpha) ->
  exists lo up, circ_median_ci alpha median z = Ok (Some (lo, up)) /\
    (exists a, In a alpha /\ same_dir lo a) /\ (exists b, In b alpha /\ same_dir up b) /\
    0 <= lo < 2 * PI /\ 0 <= up < 2 * PI /\
    (lo <> up -> on_ccw_arc median lo up).
Proof. exact median_ci_large_api. Qed.
Print Assumptions C23_median_ci_partial.
Theorem C23_median_ci_raises_at_n : forall alpha median z tie, (15 < length alpha)%nat ->
  0 <= z <= sqrt (INR (length alpha)) -> ties_median alpha median tie ->
  upper_index alpha median z tie = Z.of_nat (length alpha) ->
  circ_median_ci alpha median z = Err IndexError.
Proof. exact median_ci_large_error. Qed.
Print Assumptions C23_median_ci_raises_at_n.
Example C23_example : (15 < length ci_good)%nat /\ ties_median ci_good 2 true /\
  0 <= 196/100 <= sqrt (INR (length ci_good)) /\ upper_index ci_good 2 (196/100) true = 10%Z.
Proof. exact ex23. Qed.

(** C24.  Full statement: non-negative and non-decreasing on [0, 1), largest at 1.
    Non-negative: proved.  Non-decreasing: proved on each side of r = 0.85, false across
    it and at r = 1. *)
Theorem C24_kappa_monotone_partial : forall r r', 0 <= r <= r' ->
  (r' < 85/100 \/ (85/100 <= r /\ r' < 1)) ->
  exists k k', circ_kappa r None = Ok k /\ circ_kappa r' None = Ok k' /\ 0 <= k <= k'.
Proof. exact circ_kappa_monotone. Qed.
Print Assumptions C24_kappa_monotone_partial.
Example C24_example : 0 <= 1/10 <= 8/10 /\ (8/10 < 85/100 \/ (85/100 <= 1/10 /\ 8/10 < 1)).
Proof. split; [lra|left; lra]. Qed.
Theorem C24_kappa_refuted :
  (exists r r' k k', 0 <= r /\ r < r' /\ r' < 1 /\ circ_kappa r None = Ok k /\
     circ_kappa r' None = Ok k' /\ k' < k) /\
  (forall r, 1/2 <= r < 1 -> exists k k1, circ_kappa r None = Ok k /\ circ_kappa 1 None = Ok k1 /\ k1 < k).
Proof. exact kappa_not_monotone. Qed.
Print Assumptions C24_kappa_refuted.
Theorem C24_kappa_small_sample :
  (forall r n, 15 < n -> circ_kappa r (Some n) = circ_kappa r None) /\
  (forall r n k, 0 <= r < 1 -> 1 <= n -> circ_kappa r (Some n) = Ok k -> 0 <= k) /\
  (forall r n e, circ_kappa r n = Err e -> 0 <= r < 1 ->
     e = ZeroDivisionError /\ exists m, n = Some m /\ m <= 15 /\ (m = 0 \/ r = 0)).
Proof. exact (conj circ_kappa_large_n (conj circ_kappa_nonneg circ_kappa_errors)). Qed.
Print Assumptions C24_kappa_small_sample.

(** C25 *)
Theorem C25_quantile_extremes : forall alpha med p linear, alpha <> [] ->
  circ_median_default alpha = Ok (MOne med) -> 0 <= p <= 1 ->
  exists q d, circ_quantile alpha p linear = Ok (Fin q) /\ 0 <= q < 2 * PI /\ offset_from med q d /\
    (p = 0 -> exists a, In a alpha /\ offset_from med a d /\
       forall b db, In b alpha -> offset_from med b db -> d <= db) /\
    (p = 1 -> exists a, In a alpha /\ offset_from med a d /\
       forall b db, In b alpha -> offset_from med b db -> db <= d).
Proof. exact circ_quantile_spec. Qed.
Print Assumptions C25_quantile_extremes.
Example C25_example : [0; PI / 2; PI] <> [] /\ circ_median_default [0; PI / 2; PI] = Ok (MOne (PI / 2)).
Proof. exact (conj (fun H => nil_cons (eq_sym H)) median_quarter). Qed.
Theorem C25_quantile_monotone : forall alpha med p p' linear q q', alpha <> [] ->
  circ_median_default alpha = Ok (MOne med) -> 0 <= p <= p' -> p' <= 1 ->
  circ_quantile alpha p linear = Ok (Fin q) -> circ_quantile alpha p' linear = Ok (Fin q') ->
  exists d d', offset_from med q d /\ offset_from med q' d' /\ d <= d'.
Proof. exact circ_quantile_mono. Qed.
Print Assumptions C25_quantile_monotone.
Theorem C25_quantile_rotates : forall alpha t p linear, alpha <> [] -> 0 <= p <= 1 ->
  (circ_quantile alpha p linear = Ok NaN -> circ_quantile (map (fun a => a + t) alpha) p linear = Ok NaN) /\
  (forall q, circ_quantile alpha p linear = Ok (Fin q) ->
     exists q', circ_quantile (map (fun a => a + t) alpha) p linear = Ok (Fin q') /\ same_dir q' (q + t)).
Proof. exact circ_quantile_rot. Qed.
Print Assumptions C25_quantile_rotates.
Theorem C25_quantile_undefined : forall alpha p linear, alpha <> [] ->
  (circ_median_default alpha = Ok MNaN -> circ_quantile alpha p linear = Ok NaN) /\
  (forall med, circ_median_default alpha = Ok (MOne med) -> ~ (0 <= p <= 1) ->
     circ_quantile alpha p linear = Err ValueError).
Proof. exact circ_quantile_other. Qed.
Print Assumptions C25_quantile_undefined.

(** C74.  Full statement: the centre of the occupied bin.  False; the answer is always
    the first bin. *)
Theorem C74_single_bin_refuted : exists alpha w c, valid_sample alpha (Some w) /\
  (forall a, observed alpha (Some w) a -> a = c) /\
  circ_median alpha (Some w) (Some "deviation"%string) true "all"%string = Ok (MOne 0) /\ ~ same_dir 0 c.
Proof. exact single_bin_wrong. Qed.
Print Assumptions C74_single_bin_refuted.
Theorem C74_single_bin_returns_first : forall alpha w meth b avg a0, valid_sample alpha (Some w) ->
  (exists c, forall a, observed alpha (Some w) a -> a = c) -> hd_error alpha = Some a0 ->
  circ_median alpha (Some w) meth b avg = Ok (MOne a0).
Proof. exact single_bin_median. Qed.
Print Assumptions C74_single_bin_returns_first.

(** C75.  Full statement: every sample, every reordering.  False when r is within 1e-5
    of 1 (the first observation is returned); proved below that. *)
Theorem C75_median_order_partial : forall alpha alpha' meth avg, alpha <> [] ->
  Permutation alpha alpha' -> circ_r alpha None < 1 - (/ 100000 + / 1000000000000) ->
  In meth ["deviation"; "count"]%string -> In avg ["all"; "unique"]%string ->
  circ_median alpha None (Some meth) true avg = circ_median alpha' None (Some meth) true avg /\
  exists m m', circ_median alpha None (Some meth) false avg = Ok m /\
    circ_median alpha' None (Some meth) false avg = Ok m' /\
    Permutation (med_list m) (med_list m') /\ (m = MNaN <-> m' = MNaN).
Proof. exact median_reordered_api. Qed.
Print Assumptions C75_median_order_partial.
Example C75_example : circ_r [0; PI / 2; PI] None < 1 - (/ 100000 + / 1000000000000).
Proof. exact (proj1 ex19). Qed.
Theorem C75_median_order_refuted : exists alpha alpha' m m', Permutation alpha alpha' /\
  circ_median_default alpha = Ok (MOne m) /\ circ_median_default alpha' = Ok (MOne m') /\ ~ same_dir m m'.
Proof. exact median_order_wrong. Qed.
Print Assumptions C75_median_order_refuted.

(** C76.  Full statement: every method.  The count median: proved; the deviation
    median: proved within one turn, false beyond. *)
Theorem C76_median_turns_partial : forall alpha alpha' meth b, alpha <> [] -> turned alpha alpha' ->
  circ_r alpha None < 1 - (/ 100000 + / 1000000000000) ->
  (meth = "count"%string \/ meth = "deviation"%string /\ within_turn alpha /\ within_turn alpha') ->
  circ_median alpha None (Some meth) b "all"%string = circ_median alpha' None (Some meth) b "all"%string.
Proof. exact median_turned_api. Qed.
Print Assumptions C76_median_turns_partial.
Example C76_example : turned [0; PI / 2; PI] [2 * PI; PI / 2; PI] /\ within_turn [2 * PI; PI / 2; PI].
Proof. exact ex76. Qed.
Theorem C76_median_turns_refuted : exists alpha alpha' m m', turned alpha alpha' /\
  circ_median_default alpha = Ok (MOne m) /\ circ_median_default alpha' = Ok (MOne m') /\ ~ same_dir m m'.
Proof. exact median_turn_wrong. Qed.
Print Assumptions C76_median_turns_refuted.

(** C77 *)
Theorem C77_median_rotates : forall alpha t meth avg, alpha <> [] ->
  In meth ["deviation"; "count"]%string -> In avg ["all"; "unique"]%string ->
  forall b, exists m m',
    circ_median alpha None (Some meth) b avg = Ok m /\
    circ_median (map (fun a => a + t) alpha) None (Some meth) b avg = Ok m' /\
    med_dir m' (med_map (fun a => a + t) m).
Proof. exact circ_median_rot. Qed.
Print Assumptions C77_median_rotates.
Example C77_example : circ_median_default [0; PI / 2; PI] = Ok (MOne (PI / 2)).
Proof. exact median_quarter. Qed.

(** C78.  Full statement: whenever an interval is returned it contains the median.
    For n > 15 and distinct ends this is C23_median_ci_partial; for n <= 15 false. *)
Theorem C78_median_ci_misses_refuted : exists alpha m lo up,
  length alpha = 4%nat /\ circ_median_default alpha = Ok (MOne m) /\
  (forall z, circ_median_ci alpha m z = Ok (Some (lo, up))) /\ ~ on_ccw_arc m lo up.
Proof. exact median_ci_small_wrong. Qed.
Print Assumptions C78_median_ci_misses_refuted.
Theorem C78_median_ci_contains_partial : forall alpha median z tie, (15 < length alpha)%nat ->
  0 <= z <= sqrt (INR (length alpha)) -> ties_median alpha median tie ->
  upper_index alpha median z tie <> Z.of_nat (length alpha) ->
  exists lo up, circ_median_ci alpha median z = Ok (Some (lo, up)) /\
    (exists a, In a alpha /\ same_dir lo a) /\ (exists b, In b alpha /\ same_dir up b) /\
    0 <= lo < 2 * PI /\ 0 <= up < 2 * PI /\
    (lo <> up -> on_ccw_arc median lo up).
Proof. exact median_ci_large_api. Qed.
Print Assumptions C78_median_ci_contains_partial.
Theorem C78_median_ci_small : forall alpha median z, (length alpha <= 15)%nat ->
  ((length alpha < 3)%nat -> circ_median_ci alpha median z = Ok None) /\
  ((3 <= length alpha)%nat -> exists lo up, circ_median_ci alpha median z = Ok (Some (lo, up)) /\
    (exists a, In a alpha /\ same_dir lo a) /\ (exists b, In b alpha /\ same_dir up b)).
Proof. exact median_ci_small. Qed.
Print Assumptions C78_median_ci_small.
Example C78_example : (15 < length ci_good)%nat /\ ties_median ci_good 2 true /\
  0 <= 196/100 <= sqrt (INR (length ci_good)) /\ upper_index ci_good 2 (196/100) true = 10%Z.
Proof. exact ex23. Qed.

(** C79 *)
Theorem C79_moments : forall alpha w m, valid_sample alpha w -> circ_mean alpha w = Fin m ->
  circ_r alpha w < 1 ->
  circ_dispersion (smp alpha w) = (1 - circ_r (map (fun a => 2 * a) alpha) w) / (2 * circ_r alpha w ^ 2) /\
  0 <= circ_dispersion (smp alpha w) /\
  circ_skewness (smp alpha w) =
    (sample_sum (fun a => sin (2 * (a - m))) alpha w / sample_size alpha w) / Rpower (1 - circ_r alpha w) (3/2) /\
  circ_kurtosis (smp alpha w) =
    (sample_sum (fun a => cos (2 * (a - m))) alpha w / sample_size alpha w - circ_r alpha w ^ 4)
      / (1 - circ_r alpha w) ^ 2.
Proof. exact moments_char. Qed.
Print Assumptions C79_moments.
Example C79_example : valid_sample [0; PI / 2] None /\ circ_mean [0; PI / 2] None = Fin (PI / 4) /\
  0 < circ_r [0; PI / 2] None < 1.
Proof. exact ex79. Qed.

(** C80 *)
Theorem C80_moments_symmetry : forall alpha w t m, valid_sample alpha w -> circ_mean alpha w = Fin m ->
  circ_r alpha w < 1 ->
  (circ_dispersion (smp (map (fun a => a + t) alpha) w) = circ_dispersion (smp alpha w) /\
   circ_skewness (smp (map (fun a => a + t) alpha) w) = circ_skewness (smp alpha w) /\
   circ_kurtosis (smp (map (fun a => a + t) alpha) w) = circ_kurtosis (smp alpha w)) /\
  (circ_dispersion (smp (map Ropp alpha) w) = circ_dispersion (smp alpha w) /\
   circ_skewness (smp (map Ropp alpha) w) = - circ_skewness (smp alpha w) /\
   circ_kurtosis (smp (map Ropp alpha) w) = circ_kurtosis (smp alpha w)).
Proof. exact moments_sym. Qed.
Print Assumptions C80_moments_symmetry.
Example C80_example : valid_sample [0; PI / 2] None /\ circ_mean [0; PI / 2] None = Fin (PI / 4) /\
  0 < circ_r [0; PI / 2] None < 1.
Proof. exact ex79. Qed.
