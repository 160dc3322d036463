{
 "claims": [
  {
   "property": "C01",
   "status": "proved",
   "theorems": [
    "C01_angmod_errors",
    "C01_angmod_error_kind",
    "C01_angmod_representative",
    "C01_angmod_idempotent",
    "C01_angmod_periodic"
   ],
   "note": "Scalar angmod in exact arithmetic; arrays are element-wise."
  },
  {
   "property": "C02",
   "status": "proved",
   "theorems": [
    "C02_is_shorter_arc",
    "C02_shorter_arc_unique",
    "C02_range",
    "C02_zero_iff_same_direction",
    "C02_symmetric",
    "C02_triangle",
    "C02_directions_only",
    "C02_rotation"
   ],
   "note": ""
  },
  {
   "property": "C03",
   "status": "proved",
   "theorems": [
    "C03_is_arc_membership",
    "C03_directions_only",
    "C03_rotation",
    "C03_complement"
   ],
   "note": ""
  },
  {
   "property": "C04",
   "status": "proved",
   "theorems": [
    "C04_rotate_characterised",
    "C04_rotate_compose",
    "C04_rotate_inverse",
    "C04_rotate_zero",
    "C04_rotate_errors"
   ],
   "note": ""
  },
  {
   "property": "C05",
   "status": "proved",
   "theorems": [
    "C05_roundtrip_data",
    "C05_roundtrip_rad",
    "C05_cycle",
    "C05_cycles"
   ],
   "note": "k = None in rad2data is the identity and is modelled but carries no claim."
  },
  {
   "property": "C06",
   "status": "proved",
   "theorems": [
    "C06_thresholds",
    "C06_antitone"
   ],
   "note": ""
  },
  {
   "property": "C07",
   "status": "proved",
   "theorems": [
    "C07_r_range",
    "C07_variance_range"
   ],
   "note": "circ_var needs equal weights; unequal weights trigger the bin correction, see C73."
  },
  {
   "property": "C08",
   "status": "proved",
   "theorems": [
    "C08_r_one_iff_coincident"
   ],
   "note": ""
  },
  {
   "property": "C09",
   "status": "proved",
   "theorems": [
    "C09_r_invariant"
   ],
   "note": ""
  },
  {
   "property": "C10",
   "status": "proved",
   "theorems": [
    "C10_grouped_is_expanded"
   ],
   "note": "Integer weights."
  },
  {
   "property": "C11",
   "status": "proved",
   "theorems": [
    "C11_mean_rotates",
    "C11_mean_reflects",
    "C11_mean_range",
    "C11_mean_invariant"
   ],
   "note": ""
  },
  {
   "property": "C12",
   "status": "proved",
   "theorems": [
    "C12_mean_balances",
    "C12_mean_maximises",
    "C12_mean_minimises_separation"
   ],
   "note": ""
  },
  {
   "property": "C13",
   "status": "partial",
   "theorems": [
    "C13_means_agree_partial",
    "C13_means_agree_refuted"
   ],
   "note": "Agreement proved outside the band 1e-12 < r <= 1e-8; inside it the full statement is refuted with a witness."
  },
  {
   "property": "C14",
   "status": "partial",
   "theorems": [
    "C14_pooling_partial",
    "C14_single_group",
    "C14_pooling_refuted"
   ],
   "note": "Proved when every group has a mean direction; refuted when one group has none (NaN spreads to the pooled result)."
  },
  {
   "property": "C15",
   "status": "proved",
   "theorems": [
    "C15_bin_size",
    "C15_std",
    "C15_std_at_zero",
    "C15_angular",
    "C15_same_order"
   ],
   "note": ""
  },
  {
   "property": "C16",
   "status": "proved",
   "theorems": [
    "C16_metric_names",
    "C16_center",
    "C16_center_is_arc",
    "C16_chord",
    "C16_angular_separation",
    "C16_same_order",
    "C16_directions_only"
   ],
   "note": ""
  },
  {
   "property": "C17",
   "status": "partial",
   "theorems": [
    "C17_geodesic_partial",
    "C17_geodesic_refuted"
   ],
   "note": "Proved for |x-y| <= 2 pi; refuted beyond one turn."
  },
  {
   "property": "C18",
   "status": "proved",
   "theorems": [
    "C18_chunked_equals_direct",
    "C18_chunked_rejects",
    "C18_one_entry_per_beta"
   ],
   "note": ""
  },
  {
   "property": "C19",
   "status": "partial",
   "theorems": [
    "C19_deviation_median_partial",
    "C19_deviation_median_refuted"
   ],
   "note": "Proved for angles within one turn of each other and r below the early exit; refuted beyond one turn."
  },
  {
   "property": "C20",
   "status": "proved",
   "theorems": [
    "C20_hdi_shortest",
    "C20_hdi_errors"
   ],
   "note": ""
  },
  {
   "property": "C21",
   "status": "proved",
   "theorems": [
    "C21_range_shortest_cover",
    "C21_range_invariant"
   ],
   "note": ""
  },
  {
   "property": "C22",
   "status": "proved",
   "theorems": [
    "C22_approximate_contains",
    "C22_approximate_wider",
    "C22_approximate_total",
    "C22_dispersion_contains",
    "C22_dispersion_wider"
   ],
   "note": "Mean, r, n and the critical value are arguments; the chi2/normal quantile is any admissible number."
  },
  {
   "property": "C23",
   "status": "partial",
   "theorems": [
    "C23_median_ci_refuted",
    "C23_median_ci_partial",
    "C23_median_ci_raises_at_n"
   ],
   "note": "Refuted with a 17-point sample; the exact condition for the IndexError is proved for critical values up to sqrt n."
  },
  {
   "property": "C24",
   "status": "partial",
   "theorems": [
    "C24_kappa_monotone_partial",
    "C24_kappa_refuted",
    "C24_kappa_small_sample"
   ],
   "note": "Non-negative everywhere; monotone on each side of r = 0.85; refuted across 0.85 and at r = 1."
  },
  {
   "property": "C25",
   "status": "proved",
   "theorems": [
    "C25_quantile_extremes",
    "C25_quantile_monotone",
    "C25_quantile_rotates",
    "C25_quantile_undefined"
   ],
   "note": ""
  },
  {
   "property": "C26",
   "status": "proved",
   "theorems": [
    "C26_rayleigh_valid",
    "C26_rayleigh_monotone",
    "C26_rayleigh_errors",
    "C26_rayleigh_sample",
    "C26_rayleigh_sample_z",
    "C26_rayleigh_fractional_weights"
   ],
   "note": "All n >= 1 and r in [0,1]; also strict monotonicity, exact error conditions, and the sample call reduced to the (r, n) call."
  },
  {
   "property": "C27",
   "status": "proved",
   "theorems": [
    "C27_rayleigh",
    "C27_kuiper",
    "C27_watson",
    "C27_rao",
    "C27_randomisation",
    "C27_kuiper_antitone",
    "C27_watson_antitone",
    "C27_rao_antitone",
    "C27_randomisation_antitone"
   ],
   "note": ""
  },
  {
   "property": "C28",
   "status": "partial",
   "theorems": [
    "C28_projection_partial",
    "C28_given_summary",
    "C28_bound",
    "C28_maximal_at_mean",
    "C28_whole_turns",
    "C28_rotation",
    "C28_fractional_weights_refuted"
   ],
   "note": "Projection identity, bound, maximum, rotation and whole turns proved for integer total weight; refuted for fractional total weight (int(sum(w)) truncates)."
  },
  {
   "property": "C29",
   "status": "proved",
   "theorems": [
    "C29_rejects_outside",
    "C29_whole_turns",
    "C29_rotation_bounds",
    "C29_rotation_sample",
    "C29_mean_never_rejected"
   ],
   "note": "Both the given-bounds and the sample calls; the chi-square quantile is an arbitrary positive real."
  },
  {
   "property": "C30",
   "status": "partial",
   "theorems": [
    "C30_rotation_refuted",
    "C30_opposite_points_refuted",
    "C30_scan_partial",
    "C30_tail_positive_partial",
    "C30_order_partial",
    "C30_whole_turns_partial"
   ],
   "note": "Rotation invariance and pval > 0 refuted (only half circles starting in [0, pi) are scanned; opposite points give pval 0). Proved: exact characterisation of the scan, p-value formula, order and whole-turn invariance."
  },
  {
   "property": "C31",
   "status": "proved",
   "theorems": [
    "C31_batschelet_counts",
    "C31_batschelet_monotone",
    "C31_batschelet_rotation",
    "C31_binomial_counts",
    "C31_binomial_reflection"
   ],
   "note": "Exact counts, p-value bounds, reflection; antipodal observations are counted in n2."
  },
  {
   "property": "C32",
   "status": "proved",
   "theorems": [
    "C32_resultants",
    "C32_watson_williams",
    "C32_watson_williams_errors",
    "C32_anova",
    "C32_anova_errors"
   ],
   "note": "Watson-Williams for all tabulated samples, circ_anova F-test for non-empty groups; infinite/NaN cases stated."
  },
  {
   "property": "C33",
   "status": "proved",
   "theorems": [
    "C33_watson_williams_turned",
    "C33_anova_turned"
   ],
   "note": "Exact equality of the whole Watson-Williams result; all of circ_anova's F-test report except mean directions."
  },
  {
   "property": "C34",
   "status": "proved",
   "theorems": [
    "C34_kuiper_turned",
    "C34_kuiper_mirrored",
    "C34_kuiper_permuted",
    "C34_kuiper_bounds"
   ],
   "note": ""
  },
  {
   "property": "C35",
   "status": "proved",
   "theorems": [
    "C35_watson_turned",
    "C35_watson_mirrored",
    "C35_watson_permuted",
    "C35_watson_bounds"
   ],
   "note": ""
  },
  {
   "property": "C36",
   "status": "proved",
   "theorems": [
    "C36_rao_turned",
    "C36_rao_mirrored",
    "C36_rao_permuted",
    "C36_rao_bounds"
   ],
   "note": ""
  },
  {
   "property": "C37",
   "status": "proved",
   "theorems": [
    "C37_range_test_valid",
    "C37_range_test_strict",
    "C37_range_test_turned",
    "C37_range_test_mirrored",
    "C37_range_test_permuted",
    "C37_range_test_errors"
   ],
   "note": ""
  },
  {
   "property": "C38",
   "status": "partial",
   "theorems": [
    "C38_concentration_value",
    "C38_concentration_errors",
    "C38_concentration_range",
    "C38_concentration_swap_partial",
    "C38_concentration_swap_refuted"
   ],
   "note": "Value, errors and range proved; swap symmetry proved unless F = 1 with unequal sizes, refuted there."
  },
  {
   "property": "C39",
   "status": "proved",
   "theorems": [
    "C39_rao_dispersion",
    "C39_rao_polar",
    "C39_rao_variance_terms"
   ],
   "note": "Whenever the statistic is finite."
  },
  {
   "property": "C40",
   "status": "proved",
   "theorems": [
    "C40_gain_bounds",
    "C40_change_point_R",
    "C40_change_point_T",
    "C40_change_point_short",
    "C40_change_point_turned"
   ],
   "note": "The reported k_r, k_t are the maximising split minus one; tmax is NaN iff an admissible split has a one-direction segment."
  },
  {
   "property": "C41",
   "status": "proved",
   "theorems": [
    "C41_two_way_table"
   ],
   "note": "High-concentration table with interaction, every cell observed."
  },
  {
   "property": "C42",
   "status": "partial",
   "theorems": [
    "C42_watson_u2_partial",
    "C42_statistic_order",
    "C42_statistic_sign",
    "C42_statistic_turned",
    "C42_watson_u2_errors",
    "C42_watson_u2_two_samples",
    "C42_order_refuted",
    "C42_probability_refuted"
   ],
   "note": "Proved for ascending samples without near ties; order independence and p <= 1 refuted."
  },
  {
   "property": "C43",
   "status": "proved",
   "theorems": [
    "C43_wallraff",
    "C43_wallraff_swap",
    "C43_wallraff_turned"
   ],
   "note": "Ungrouped samples; grouped ones see C90."
  },
  {
   "property": "C44",
   "status": "proved",
   "theorems": [
    "C44_common_median",
    "C44_common_median_errors",
    "C44_common_median_undefined"
   ],
   "note": "Given a unique pooled median (the default median of circ_median); error cases included."
  },
  {
   "property": "C45",
   "status": "proved",
   "theorems": [
    "C45_range",
    "C45_value",
    "C45_rotation",
    "C45_reflection",
    "C45_symmetric",
    "C45_order",
    "C45_extremes",
    "C45_jackknife"
   ],
   "note": ""
  },
  {
   "property": "C46",
   "status": "partial",
   "theorems": [
    "C46_range",
    "C46_value",
    "C46_test",
    "C46_rotation",
    "C46_reflection",
    "C46_symmetric",
    "C46_order",
    "C46_extremes",
    "C46_strict_refuted"
   ],
   "note": "Everything except strict mode is proved. The strict-mode sentence is refuted: _coerce_angles reads the attribute mean_pval, which Circular never sets, so strict=True never raises (C46_strict_refuted)."
  },
  {
   "property": "C47",
   "status": "proved",
   "theorems": [
    "C47_range",
    "C47_symmetric",
    "C47_extremes"
   ],
   "note": ""
  },
  {
   "property": "C48",
   "status": "proved",
   "theorems": [
    "C48_explained",
    "C48_defined",
    "C48_invariant",
    "C48_invariant_values",
    "C48_order",
    "C48_orientation_refuted"
   ],
   "note": "Invariance is proved whenever both calls return a number (C48_invariant_values), and unconditionally when the angles are spread in every direction (C48_invariant). For two opposite directions the kind of failure depends on the zero direction (C48_orientation_refuted)."
  },
  {
   "property": "C49",
   "status": "partial",
   "theorems": [
    "C49_fit_succeeds",
    "C49_partition",
    "C49_count_refuted"
   ],
   "note": "Everything proved for the initial number of clusters; the count min(n, n_clusters) is refuted for n_init_clusters < n_clusters < n (C49_count_refuted)."
  },
  {
   "property": "C50",
   "status": "partial",
   "theorems": [
    "C50_closest_pair",
    "C50_center_refuted"
   ],
   "note": "Proved for angularseparation, chord, geodesic; refuted for the signed metric 'center'."
  },
  {
   "property": "C51",
   "status": "partial",
   "theorems": [
    "C51_fit_run",
    "C51_shape",
    "C51_inertia",
    "C51_predict",
    "C51_nan_centre_refuted"
   ],
   "note": "Proved while all centres are defined (geodesic: data within one turn); refuted when a centre becomes NaN, after which every label is that centre."
  },
  {
   "property": "C52",
   "status": "partial",
   "theorems": [
    "C52_predict_raises",
    "C52_refuted"
   ],
   "note": "Refuted: predict raises IndexError for every input; proved that this happens for every such fit."
  },
  {
   "property": "C53",
   "status": "partial",
   "theorems": [
    "C53_movm",
    "C53_movm_refuted",
    "C53_movm_balanced",
    "C53_mokj",
    "C53_mocd"
   ],
   "note": "Full bookkeeping proved for MoKJ and MoCD. For MovM the passes, stopping rule and responsibilities are proved, but a starting group whose resultant vanishes makes every responsibility NaN and nLL empty (C53_movm_refuted). Component densities are assumed positive on the data."
  },
  {
   "property": "C54",
   "status": "partial",
   "theorems": [
    "C54_refuted",
    "C54_history",
    "C54_first_fit_movm",
    "C54_first_fit_mokj",
    "C54_first_fit_mocd"
   ],
   "note": "False: a fit that does not converge keeps the flag of an earlier fit (C54_refuted). Proved: the first fit of an estimator reports the truth, and nothing but the flags depends on the history."
  },
  {
   "property": "C55",
   "status": "partial",
   "theorems": [
    "C55_refuted",
    "C55_radian"
   ],
   "note": "False: MoCD.bic converts angles that are already in radians (C55_refuted). With unit radian it is the textbook value."
  },
  {
   "property": "C56",
   "status": "proved",
   "theorems": [
    "C56_admissible",
    "C56_after_fit"
   ],
   "note": ""
  },
  {
   "property": "C57",
   "status": "partial",
   "theorems": [
    "C57_circularuniform",
    "C57_triangular",
    "C57_cardioid",
    "C57_wrapcauchy",
    "C57_katojones_sign",
    "C57_katojones_partial",
    "C57_katojones_refuted",
    "C57_katojones_floor_refuted"
   ],
   "note": "Proved for circularuniform, triangular, cardioid and wrapcauchy, and for katojones up to rho = 1 - 1e-7 with the documented constraint; the unclipped katojones formula is non-negative exactly under that constraint. Refuted for what katojones._argcheck admits: its slack of 1e-12 lets the clipped pdf integrate to more than 1. Refuted for documented parameters next to rho = 1: the floor 1e-15 of the denominator makes the pdf integrate to less than 1."
  },
  {
   "property": "C58",
   "status": "partial",
   "theorems": [
    "C58_circularuniform",
    "C58_triangular",
    "C58_cardioid",
    "C58_wrapcauchy_refuted",
    "C58_wrapcauchy_partial"
   ],
   "note": "circularuniform, triangular and cardioid: cdf is the distribution function of pdf (value, monotone, integral, derivative). wrapcauchy: refuted for every parameter (cdf is 1 on the last 6e-5 of the turn); exact outside the stated windows."
  },
  {
   "property": "C59",
   "status": "partial",
   "theorems": [
    "C59_circularuniform",
    "C59_circularuniform_back",
    "C59_triangular",
    "C59_triangular_back",
    "C59_cardioid",
    "C59_wrapcauchy_refuted",
    "C59_wrapcauchy_partial"
   ],
   "note": "circularuniform: exact both ways. triangular: 1e-12 always, exact for rho > 1e-12. cardioid: 2^-32 for every parameter. wrapcauchy: refuted near 2 pi; 1e-15 elsewhere."
  },
  {
   "property": "C60",
   "status": "partial",
   "theorems": [
    "C60_partial",
    "C60_refuted"
   ],
   "note": "Proved for rho <= 0.94 (pdf is then a strictly positive density); refuted for rho = 1 - 1/2000."
  },
  {
   "property": "C61",
   "status": "partial",
   "theorems": [
    "C61_refuted",
    "C61_partial"
   ],
   "note": "Refuted: the cdf falls from above 1/2 to 0. Non-decreasing where more than 1e-12 of the probability remains and x is not in the last 9e-5 of the turn."
  },
  {
   "property": "C62",
   "status": "partial",
   "theorems": [
    "C62_offset",
    "C62_refuted"
   ],
   "note": "Refuted: entropy returns ln(2 pi) minus the differential entropy (C62_offset for every kappa, C62_refuted at kappa = 1/10)."
  },
  {
   "property": "C63",
   "status": "partial",
   "theorems": [
    "C63_cardioid",
    "C63_wrapcauchy",
    "C63_vonmises_partial",
    "C63_vonmises_refuted"
   ],
   "note": "cardioid and wrapcauchy gradients are the partial derivatives; the mu component of the vonmises gradient has the wrong sign (refuted), its kappa component is right."
  },
  {
   "property": "C64",
   "status": "partial",
   "theorems": [
    "C64_refuted",
    "C64_partial"
   ],
   "note": "Refuted at rho = 0, gamma > 0 (off by 1/(2 pi)); within 1e-10 of the integral for rho <= 0.99 away from the ends."
  },
  {
   "property": "C65",
   "status": "proved",
   "theorems": [
    "C65_there_and_back",
    "C65_back_and_there",
    "C65_project_nearest",
    "C65_project_identity",
    "C65_project_admissible"
   ],
   "note": "Both compositions, the projection as nearest point, identity on feasible moments and admissibility of the result."
  },
  {
   "property": "C66",
   "status": "partial",
   "theorems": [
    "C66_cache_partial",
    "C66_pdf_partial",
    "C66_refuted"
   ],
   "note": "Refuted (C66_refuted): after one call of inverse_batschelet.cdf the pdf of the same parameters (kappa = 400, lambda = 1, nu = 0) is at most 10/19 of its former value everywhere, because building the table overwrites the cached normalising constant. Proved: the base-class cache alone is transparent; the pdf of inverse_batschelet keeps its value after any calls that build no table for the same kappa and lambda."
  },
  {
   "property": "C67",
   "status": "partial",
   "theorems": [
    "C67_refuted"
   ],
   "note": "C67_refuted: the first sine moment jumps between alpha = 1 and alpha = 1 + 2e-10 (wrong sign of the phase correction in the alpha = 1 branch). That draws follow another location parametrisation than pdf is noted in DESIGN.md and not formalised."
  },
  {
   "property": "C68",
   "status": "partial",
   "theorems": [
    "C68_starts_partial",
    "C68_series_partial",
    "C68_exact_partial",
    "C68_refuted"
   ],
   "note": "For kappa >= 1e-3 cdf starts at 0 (C68_starts_partial) and is the clipped integral of a truncated series; exact for psi = 1. Refuted for kappa < 1e-3: it decreases."
  },
  {
   "property": "C69",
   "status": "partial",
   "theorems": [
    "C69_refuted",
    "C69_partial",
    "C69_fit"
   ],
   "note": "Refuted for positional loc and scale and for values within the np.allclose tolerance (C69_refuted); C69_partial and C69_fit prove the keyword rules for every family."
  },
  {
   "property": "C70",
   "status": "partial",
   "theorems": [
    "C70_mean_partial",
    "C70_refuted"
   ],
   "note": "Proved for the mean (half the argument of the resultant of the doubled angles). Refuted for the median: readings agreeing on one axis give mean m and median 2 m."
  },
  {
   "property": "C71",
   "status": "partial",
   "theorems": [
    "C71_weights",
    "C71_bins",
    "C71_refuted"
   ],
   "note": "Refuted in general: every significant equally spaced grouped sample with 8 <= n < 25 raises ValueError, because the bootstrap ignores the counts; witness 10 observations in one of 4 bins. For n >= 25 see C168."
  },
  {
   "property": "C72",
   "status": "partial",
   "theorems": [
    "C72_refuted",
    "C72_when",
    "C72_density"
   ],
   "note": "False for full_cycle other than 360 when the unit is not radian (C72_refuted); exact condition proved."
  },
  {
   "property": "C73",
   "status": "partial",
   "theorems": [
    "C73_binned_variance_refuted"
   ],
   "note": "Refuted: negative variance and NaN standard deviations for a concrete grouped sample. The bound for equal weights is C07."
  },
  {
   "property": "C74",
   "status": "partial",
   "theorems": [
    "C74_single_bin_refuted",
    "C74_single_bin_returns_first"
   ],
   "note": "Refuted; the first bin is always returned."
  },
  {
   "property": "C75",
   "status": "partial",
   "theorems": [
    "C75_median_order_partial",
    "C75_median_order_refuted"
   ],
   "note": "Proved below the early-exit threshold; refuted above it."
  },
  {
   "property": "C76",
   "status": "partial",
   "theorems": [
    "C76_median_turns_partial",
    "C76_median_turns_refuted"
   ],
   "note": "Proved for the count method and, within one turn, for the deviation method; refuted beyond."
  },
  {
   "property": "C77",
   "status": "proved",
   "theorems": [
    "C77_median_rotates"
   ],
   "note": ""
  },
  {
   "property": "C78",
   "status": "partial",
   "theorems": [
    "C78_median_ci_misses_refuted",
    "C78_median_ci_contains_partial",
    "C78_median_ci_small"
   ],
   "note": "Proved for n > 15 with distinct ends; refuted for n = 4."
  },
  {
   "property": "C79",
   "status": "proved",
   "theorems": [
    "C79_moments"
   ],
   "note": ""
  },
  {
   "property": "C80",
   "status": "proved",
   "theorems": [
    "C80_moments_symmetry"
   ],
   "note": ""
  },
  {
   "property": "C81",
   "status": "proved",
   "theorems": [
    "C81_chisquare",
    "C81_chisquare_order",
    "C81_chisquare_errors"
   ],
   "note": "chi2 survival function is an arbitrary function argument."
  },
  {
   "property": "C82",
   "status": "proved",
   "theorems": [
    "C82_symmetry_signed_offsets",
    "C82_symmetry_rotation",
    "C82_symmetry_whole_turns"
   ],
   "note": "scipy wilcoxon is an arbitrary function of the offsets."
  },
  {
   "property": "C83",
   "status": "partial",
   "theorems": [
    "C83_watson_probability_partial",
    "C83_kuiper_probability_refuted"
   ],
   "note": "Watson proved (via a finite triple product identity); Kuiper refuted: every sample of two or more equal angles gets a negative p-value."
  },
  {
   "property": "C84",
   "status": "partial",
   "theorems": [
    "C84_directions_only_refuted"
   ],
   "note": "Proved for angles within one turn (C34-C36); refuted in general: the tests do not wrap their input."
  },
  {
   "property": "C85",
   "status": "proved",
   "theorems": [
    "C85_randomisation_statistic",
    "C85_randomisation_turned",
    "C85_randomisation_mirrored",
    "C85_randomisation_symmetric",
    "C85_randomisation_errors"
   ],
   "note": ""
  },
  {
   "property": "C86",
   "status": "partial",
   "theorems": [
    "C86_rao_grouped_partial",
    "C86_rao_near_integer_refuted"
   ],
   "note": "Proved for exactly integral weights; refuted for accepted near-integers, which astype(int) truncates."
  },
  {
   "property": "C87",
   "status": "partial",
   "theorems": [
    "C87_anova_LRT_partial",
    "C87_anova_LRT_zero",
    "C87_anova_LRT_refuted"
   ],
   "note": "Formula, NaN and error cases proved; non-negativity refuted."
  },
  {
   "property": "C88",
   "status": "partial",
   "theorems": [
    "C88_equal_kappa_small_partial",
    "C88_equal_kappa_moderate_partial",
    "C88_equal_kappa_large",
    "C88_equal_kappa_errors",
    "C88_equal_kappa_refuted"
   ],
   "note": "Small and moderate regime need at least five / four observations per group; refuted for smaller groups."
  },
  {
   "property": "C89",
   "status": "partial",
   "theorems": [
    "C89_wheeler_partial",
    "C89_statistic_order",
    "C89_statistic_turned",
    "C89_wheeler_ties_refuted"
   ],
   "note": "Proved without ties; with ties sample order changes W (refuted)."
  },
  {
   "property": "C90",
   "status": "partial",
   "theorems": [
    "C90_samples_rejected_partial",
    "C90_wallraff_grouped_refuted",
    "C90_fractional_weight"
   ],
   "note": "Rejection and expansion proved for three tests; refuted for wallraff_test."
  },
  {
   "property": "C91",
   "status": "partial",
   "theorems": [
    "C91_rao_dispersion_turned_partial",
    "C91_rao_polar_opposite",
    "C91_rao_polar_refuted"
   ],
   "note": "H_disp proved; H_polar refuted."
  },
  {
   "property": "C92",
   "status": "partial",
   "theorems": [
    "C92_two_way_plain_partial",
    "C92_interaction_refuted"
   ],
   "note": "Sums of squares proved; degrees of freedom add up to pq - 1 instead of n - 1; negative interaction in an unbalanced design (refuted)."
  },
  {
   "property": "C93",
   "status": "partial",
   "theorems": [
    "C93_same_as_circ_kappa",
    "C93_monotone_partial",
    "C93_monotone_refuted"
   ],
   "note": "agreement with circ_kappa proved for every r in [0, 1); monotonicity proved on [0, 0.85) and [0.85, 1) and refuted across 0.85, where the value drops"
  },
  {
   "property": "C94",
   "status": "partial",
   "theorems": [
    "C94_monotone",
    "C94_rotation_partial",
    "C94_reflection_partial",
    "C94_turns_refuted"
   ],
   "note": "Rotation and reflection are proved for angles in [0, 2 pi); without that restriction the rotation claim is refuted, since the code ranks raw values (C94_turns_refuted)."
  },
  {
   "property": "C95",
   "status": "proved",
   "theorems": [
    "C95_method",
    "C95_test_flag",
    "C95_sizes"
   ],
   "note": ""
  },
  {
   "property": "C96",
   "status": "proved",
   "theorems": [
    "C96_hac_rotation"
   ],
   "note": "n_init_clusters=None (the default). With a K-means initialisation the metric 'geodesic' depends on the cut, see C17."
  },
  {
   "property": "C97",
   "status": "proved",
   "theorems": [
    "C97_kmeans_rotation"
   ],
   "note": ""
  },
  {
   "property": "C98",
   "status": "partial",
   "theorems": [
    "C98_labels_refuted",
    "C98_lag"
   ],
   "note": "Refuted by a three-point data set with max_iter=1; proved that predict returns the labels of the next iteration, and labels_ when the centres did not move."
  },
  {
   "property": "C99",
   "status": "partial",
   "theorems": [
    "C99_silhouette",
    "C99_standard_refuted"
   ],
   "note": "Edge cases and range proved; equality with the standard silhouette refuted on three points."
  },
  {
   "property": "C100",
   "status": "proved",
   "theorems": [
    "C100_hac_predict"
   ],
   "note": "geodesic metric: training and new angles within one turn"
  },
  {
   "property": "C101",
   "status": "proved",
   "theorems": [
    "C101_training",
    "C101_movm",
    "C101_mokj",
    "C101_mocd",
    "C101_unfitted"
   ],
   "note": "For MovM under the condition that no returned mean is NaN (see C53)."
  },
  {
   "property": "C102",
   "status": "proved",
   "theorems": [
    "C102_movm",
    "C102_mokj"
   ],
   "note": ""
  },
  {
   "property": "C103",
   "status": "partial",
   "theorems": [
    "C103_mokj",
    "C103_movm_refuted"
   ],
   "note": "Proved for MoKJ. False for MovM: the last entry belongs to the parameters before the last update (C103_movm_refuted; the Bessel function enters through its first Taylor terms)."
  },
  {
   "property": "C104",
   "status": "proved",
   "theorems": [
    "C104_turned"
   ],
   "note": ""
  },
  {
   "property": "C105",
   "status": "partial",
   "theorems": [
    "C105_one_component",
    "C105_identical_refuted"
   ],
   "note": "Proved, except that identical angles get kappa = 1e-3 because circ_kappa(1) is 1e-16 (C105_identical_refuted)."
  },
  {
   "property": "C106",
   "status": "partial",
   "theorems": [
    "C106_kept",
    "C106_refuted"
   ],
   "note": "Proved inside the safety margins; false near the boundary (C106_refuted: gamma = 0.99, rho = 0.985)."
  },
  {
   "property": "C107",
   "status": "partial",
   "theorems": [
    "C107_triangular",
    "C107_cardioid",
    "C107_wrapcauchy",
    "C107_katojones_partial",
    "C107_katojones_refuted"
   ],
   "note": "Proved for triangular, cardioid, wrapcauchy; for katojones (every integer order) up to rho = 1 - 1e-7. Refuted for katojones next to rho = 1: the floor 1e-15 of the denominator takes mass away, and the order-0 moment is not the 1 returned."
  },
  {
   "property": "C108",
   "status": "partial",
   "theorems": [
    "C108_partial",
    "C108_refuted"
   ],
   "note": "Proved for 1e-15 < rho <= 1 - 2e-5; refuted at rho = 1 - 1e-5 where every draw equals mu."
  },
  {
   "property": "C109",
   "status": "proved",
   "theorems": [
    "C109_mle"
   ],
   "note": "brentq is an oracle assumed to return a zero of the score when the score changes sign."
  },
  {
   "property": "C110",
   "status": "partial",
   "theorems": [
    "C110_refuted"
   ],
   "note": "Refuted: next to 0 the truncated series is negative and is reduced modulo 1 to nearly 1."
  },
  {
   "property": "C111",
   "status": "partial",
   "theorems": [
    "C111_range",
    "C111_refuted"
   ],
   "note": "The range is proved; inversion is refuted for small q (the probability of [0, ppf(q)] is less than q/1000)."
  },
  {
   "property": "C112",
   "status": "partial",
   "theorems": [
    "C112_moments",
    "C112_no_error",
    "C112_refuted"
   ],
   "note": "Parameter range, moment matching and absence of errors proved; refuted for balanced samples, where mu is NaN."
  },
  {
   "property": "C113",
   "status": "proved",
   "theorems": [
    "C113_density",
    "C113_logpdf",
    "C113_moments",
    "C113_var_std"
   ],
   "note": "The Bessel functions are any functions satisfying their integral representation."
  },
  {
   "property": "C114",
   "status": "partial",
   "theorems": [
    "C114_partial",
    "C114_refuted"
   ],
   "note": "Within 1e-10 (4e-9 for kappa < 1e-9) outside the isclose window next to 2 pi, trusting the quadrature for kappa > 460; refuted as an equality inside the window."
  },
  {
   "property": "C115",
   "status": "partial",
   "theorems": [
    "C115_partial",
    "C115_small_partial",
    "C115_refuted"
   ],
   "note": "Within 8e-9 in angle and 2e-10 in probability for q up to the mass of [0, 2 pi - 9e-5]; refuted for q = 1 - 1e-7, kappa = 1, mu = 0."
  },
  {
   "property": "C116",
   "status": "proved",
   "theorems": [
    "C116_sampler",
    "C116_small"
   ],
   "note": "Acceptance probability and proposal law; the uniforms are given."
  },
  {
   "property": "C117",
   "status": "proved",
   "theorems": [
    "C117_location"
   ],
   "note": ""
  },
  {
   "property": "C118",
   "status": "partial",
   "theorems": [
    "C118_refuted"
   ],
   "note": "Refuted: positional parameters raise, kappa = -1 is accepted."
  },
  {
   "property": "C119",
   "status": "proved",
   "theorems": [
    "C119_monotone"
   ],
   "note": "For any monotone ndtr."
  },
  {
   "property": "C120",
   "status": "proved",
   "theorems": [
    "C120_moments",
    "C120_fit"
   ],
   "note": ""
  },
  {
   "property": "C121",
   "status": "partial",
   "theorems": [
    "C121_partial",
    "C121_refuted"
   ],
   "note": "Within 1e-12 plus the tail rho^900/(45(1-rho)) of the truncated series, hence 2e-12 for rho <= 0.96, outside the isclose window next to 2 pi; refuted as an equality inside the window. ndtr is any function with the normal density as derivative and limits 0, 1 (existence proved)."
  },
  {
   "property": "C122",
   "status": "partial",
   "theorems": [
    "C122_partial",
    "C122_refuted"
   ],
   "note": "For rho <= 0.96; for rho close to one refuted: the truncated series of pdf has other quantiles."
  },
  {
   "property": "C123",
   "status": "proved",
   "theorems": [
    "C123_law",
    "C123_uniform"
   ],
   "note": "For rho up to 1 - 1e-15; the normal variate enters through its distribution function ndtr."
  },
  {
   "property": "C124",
   "status": "proved",
   "theorems": [
    "C124_moments"
   ],
   "note": "The total mass and n = 1 are exact; accuracy 1e-12 for every n under the condition that 20000 terms suffice. At alpha = 1 with beta <> 0 the law is not the stable one (C67)."
  },
  {
   "property": "C125",
   "status": "partial",
   "theorems": [
    "C125_partial",
    "C125_refuted"
   ],
   "note": "Proved for alpha >= 1 and exp(-gamma^alpha) <= 1/3; refuted for gamma = 1e-9, alpha = 2 (20000 terms are not enough)."
  },
  {
   "property": "C126",
   "status": "partial",
   "theorems": [
    "C126_partial",
    "C126_monotone_partial",
    "C126_refuted"
   ],
   "note": "Proved for every parameter vector whose truncated series is non-negative, outside two windows; refuted (not monotone) for gamma = 1e-9."
  },
  {
   "property": "C127",
   "status": "proved",
   "theorems": [
    "C127_inverts",
    "C127_root"
   ],
   "note": "C127_inverts is unconditional; C127_root adds the probability statement where pdf is non-negative."
  },
  {
   "property": "C128",
   "status": "proved",
   "theorems": [
    "C128_fit"
   ],
   "note": ""
  },
  {
   "property": "C129",
   "status": "proved",
   "theorems": [
    "C129_rotation",
    "C129_reflection",
    "C129_draws"
   ],
   "note": ""
  },
  {
   "property": "C130",
   "status": "proved",
   "theorems": [
    "C130_cauchy",
    "C130_normal",
    "C130_draws"
   ],
   "note": ""
  },
  {
   "property": "C131",
   "status": "proved",
   "theorems": [
    "C131_density",
    "C131_unimodal",
    "C131_members"
   ],
   "note": "scipy.special.iv, lpmv and quad_vec are assumed correct."
  },
  {
   "property": "C132",
   "status": "partial",
   "theorems": [
    "C132_series_partial",
    "C132_cardioid_partial",
    "C132_flat_partial",
    "C132_vonmises_partial",
    "C132_refuted"
   ],
   "note": "Exact for psi = 1 and kappa < 1e-3, equal to vonmises.cdf for |psi| < 1e-6, the clipped integral of a truncated series otherwise; refuted for kappa = 14, psi = -1 (cdf decreases)."
  },
  {
   "property": "C133",
   "status": "proved",
   "theorems": [
    "C133_jonespewsey",
    "C133_asym"
   ],
   "note": "Relative to the class's own cdf; no assumption on the quadrature or on monotonicity."
  },
  {
   "property": "C134",
   "status": "partial",
   "theorems": [
    "C134_partial",
    "C134_rejects",
    "C134_refuted"
   ],
   "note": "The reported log-likelihood is at least that of the estimates; refuted that they are equal."
  },
  {
   "property": "C135",
   "status": "proved",
   "theorems": [
    "C135_density"
   ],
   "note": "scipy.special.iv, lpmv and quad_vec are assumed correct."
  },
  {
   "property": "C136",
   "status": "partial",
   "theorems": [
    "C136_skewed_partial",
    "C136_symmetric_partial",
    "C136_refuted"
   ],
   "note": "Proved for kappa >= 1e-3 with |lmbd| >= 1e-12 or lmbd = 0; refuted for kappa < 1e-3."
  },
  {
   "property": "C137",
   "status": "proved",
   "theorems": [
    "C137_density",
    "C137_cdf"
   ],
   "note": "quad_vec is assumed correct."
  },
  {
   "property": "C138",
   "status": "partial",
   "theorems": [
    "C138_partial",
    "C138_refuted"
   ],
   "note": "Error at most L/48 for an L-Lipschitz density; refuted for kappa = 14, psi = -1, nu = 0."
  },
  {
   "property": "C139",
   "status": "partial",
   "theorems": [
    "C139_partial",
    "C139_refuted"
   ],
   "note": "Proved for |lmbd| < 1; refuted for |lmbd| = 1, where rvs raises ValueError although the parameters are admissible."
  },
  {
   "property": "C140",
   "status": "proved",
   "theorems": [
    "C140_sound",
    "C140_complete"
   ],
   "note": "For scalar shapes; keywords of scipy's expect other than shapes, loc and scale are outside the model."
  },
  {
   "property": "C141",
   "status": "proved",
   "theorems": [
    "C141_values",
    "C141_undirected"
   ],
   "note": "The trigonometric moments are exact integrals (scipy's expect is an oracle)."
  },
  {
   "property": "C142",
   "status": "proved",
   "theorems": [
    "C142_rotation",
    "C142_reflection"
   ],
   "note": "For distributions with r > 1e-12."
  },
  {
   "property": "C143",
   "status": "proved",
   "theorems": [
    "C143_sample"
   ],
   "note": ""
  },
  {
   "property": "C144",
   "status": "proved",
   "theorems": [
    "C144_cardioid",
    "C144_wrapcauchy",
    "C144_wrapnorm",
    "C144_vonmises"
   ],
   "note": "vonmises: under the hypotheses that I1/I0 and I2/I0 lie in the stated ranges."
  },
  {
   "property": "C145",
   "status": "partial",
   "theorems": [
    "C145_refuted"
   ],
   "note": "Refuted: median is the quantile of one half counted from 0 (C145_refuted)."
  },
  {
   "property": "C146",
   "status": "proved",
   "theorems": [
    "C146_batch"
   ],
   "note": "Finite angles; quad is exact."
  },
  {
   "property": "C147",
   "status": "partial",
   "theorems": [
    "C147_law",
    "C147_mass_partial",
    "C147_mass_von_mises"
   ],
   "note": "Law proved in full; the total is proved to be one up to the trapezoidal error pi kappa (1 + |nu|)/512 (the true error is far smaller). Missing: the total at machine precision."
  },
  {
   "property": "C148",
   "status": "proved",
   "theorems": [
    "C148_von_mises",
    "C148_small"
   ],
   "note": ""
  },
  {
   "property": "C149",
   "status": "partial",
   "theorems": [
    "C149_partial",
    "C149_refuted"
   ],
   "note": "Refuted for kappa = 1000 (C149_refuted): the table saturates and cdf falls to 0 before the end of the turn. Proved for kappa <= 348 with the error of the 512-cell table."
  },
  {
   "property": "C150",
   "status": "partial",
   "theorems": [
    "C150_partial",
    "C150_refuted"
   ],
   "note": "Proved for kappa <= 348 and 1e-12 < q < 1 - 1e-12; refuted for levels next to one. Missing: larger kappa, where C149 fails."
  },
  {
   "property": "C151",
   "status": "partial",
   "theorems": [
    "C151_refuted",
    "C151_inverse_batschelet_refuted"
   ],
   "note": "Refuted both ways: the flat-topped pdf clips kappa before the check while cdf and ppf do not; for inverse Batschelet it is the other way round."
  },
  {
   "property": "C152",
   "status": "proved",
   "theorems": [
    "C152_rejection"
   ],
   "note": ""
  },
  {
   "property": "C153",
   "status": "proved",
   "theorems": [
    "C153_likelihood",
    "C153_bounds"
   ],
   "note": ""
  },
  {
   "property": "C154",
   "status": "proved",
   "theorems": [
    "C154_nu",
    "C154_lambda"
   ],
   "note": "The root finder is assumed to return a root of a continuous function with a sign change."
  },
  {
   "property": "C155",
   "status": "partial",
   "theorems": [
    "C155_partial",
    "C155_uniform"
   ],
   "note": "Proved for kappa <= 700 and lambda = 1, -1 or at least 1e-4 away from both, with the total one up to the trapezoidal error of the normalising constant (exactly one for lambda = 0 and 1). Missing: lambda next to the ends, where normaliser and kernel use different tests; a sharper bound of the total."
  },
  {
   "property": "C156",
   "status": "partial",
   "theorems": [
    "C156_von_mises_partial",
    "C156_refuted",
    "C156_flat"
   ],
   "note": "Proved for 1e-9 < kappa <= 700; refuted beyond (C156_refuted), because kappa is silently cut at 700."
  },
  {
   "property": "C157",
   "status": "proved",
   "theorems": [
    "C157_reversal"
   ],
   "note": "Every statistic and the exception are equal."
  },
  {
   "property": "C158",
   "status": "partial",
   "theorems": [
    "C158_partial",
    "C158_refuted"
   ],
   "note": "Proved for units other than degree, radian, hour. Refuted for unit='degree', full_cycle=365: 200 and 200 - 365/2 give different means."
  },
  {
   "property": "C159",
   "status": "partial",
   "theorems": [
    "C159_partial",
    "C159_refuted"
   ],
   "note": "Proved for data within [0, one cycle]. Refuted for data [-1, 1] in radians: n = 1."
  },
  {
   "property": "C160",
   "status": "proved",
   "theorems": [
    "C160_histogram"
   ],
   "note": "Counts, centres, bounds, bin size and n."
  },
  {
   "property": "C161",
   "status": "proved",
   "theorems": [
    "C161_units",
    "C161_unknown"
   ],
   "note": "Also the same exception; unknown units raise."
  },
  {
   "property": "C162",
   "status": "proved",
   "theorems": [
    "C162_rotate"
   ],
   "note": "Ungrouped or explicitly weighted data (bins not given)."
  },
  {
   "property": "C163",
   "status": "partial",
   "theorems": [
    "C163_partial",
    "C163_refuted"
   ],
   "note": "Proved when the total weight is an integer. Refuted for weights [1.5, 0]: n = 1 and R = 1 instead of 1.5."
  },
  {
   "property": "C164",
   "status": "partial",
   "theorems": [
    "C164_partial",
    "C164_refuted"
   ],
   "note": "Proved for n, mean, r, R, p-value, kappa and method, and for the standard deviations if the bin size is the same. Refuted in general: bins 0, 90, 270 in another order give bin size -3 pi/2 and NaN standard deviation."
  },
  {
   "property": "C165",
   "status": "partial",
   "theorems": [
    "C165_level_refuted",
    "C165_refuted"
   ],
   "note": "Refuted: the level is always 0.95 and 'method' is popped from the user's dictionary, so the second object uses the bootstrap."
  },
  {
   "property": "C166",
   "status": "partial",
   "theorems": [
    "C166_several",
    "C166_refuted"
   ],
   "note": "Refuted: whenever circ_median returns several medians the constructor raises; witness [0, 0, 90] degrees."
  },
  {
   "property": "C167",
   "status": "partial",
   "theorems": [
    "C167_refuted"
   ],
   "note": "Refuted: a sample of 16 or more observations whose median leaves no room for the interval raises IndexError."
  },
  {
   "property": "C168",
   "status": "proved",
   "theorems": [
    "C168_interval",
    "C168_built"
   ],
   "note": "Interval contains the mean (C168_interval); construction succeeds without median computation (C168_built)."
  },
  {
   "property": "C169",
   "status": "partial",
   "theorems": [
    "C169_refuted"
   ],
   "note": "Refuted for a sample of eight with every row at one direction: the turned data give another direction."
  },
  {
   "property": "C170",
   "status": "proved",
   "theorems": [
    "C170_contains"
   ],
   "note": "For every set of resampled rows."
  },
  {
   "property": "C171",
   "status": "partial",
   "theorems": [
    "C171_partial",
    "C171_refuted"
   ],
   "note": "Proved when cos and sin are uncorrelated in the sample. Refuted otherwise (the 1 inside the denominator): covariance -1/32, off-diagonal of v0 squared 0."
  },
  {
   "property": "C172",
   "status": "partial",
   "theorems": [
    "C172_half_partial",
    "C172_runs_partial",
    "C172_refuted"
   ],
   "note": "Even number of bins: proved that a single median splits the counts in half and that the call never raises (up to 10^6 bins). Refuted for three bins with counts 1, 1, 0: the median is 180 degrees, the axis of symmetry 60 degrees."
  },
  {
   "property": "C173",
   "status": "proved",
   "theorems": [
    "C173_directions",
    "C173_labels"
   ],
   "note": ""
  },
  {
   "property": "C174",
   "status": "proved",
   "theorems": [
    "C174_least_squares",
    "C174_rho"
   ],
   "note": ""
  },
  {
   "property": "C175",
   "status": "proved",
   "theorems": [
    "C175_turned",
    "C175_reordered"
   ],
   "note": ""
  },
  {
   "property": "C176",
   "status": "proved",
   "theorems": [
    "C176_nested"
   ],
   "note": ""
  },
  {
   "property": "C177",
   "status": "proved",
   "theorems": [
    "C177_test",
    "C177_message"
   ],
   "note": ""
  },
  {
   "property": "C178",
   "status": "partial",
   "theorems": [
    "C178_refuted"
   ],
   "note": "Refuted: cos and sin are tested separately, so the verdict changes when the responses are turned."
  },
  {
   "property": "C179",
   "status": "partial",
   "theorems": [
    "C179_refuted",
    "C179_partial"
   ],
   "note": "Refuted for two predictors: the factor is n - (2 order + 1) whatever the number of predictors. Proved for one predictor."
  },
  {
   "property": "C180",
   "status": "proved",
   "theorems": [
    "C180_arrays",
    "C180_vector",
    "C180_formula"
   ],
   "note": ""
  },
  {
   "property": "C181",
   "status": "proved",
   "theorems": [
    "C181_formula",
    "C181_one_predictor",
    "C181_bad_inputs",
    "C181_names"
   ],
   "note": ""
  },
  {
   "property": "C182",
   "status": "partial",
   "theorems": [
    "C182_values_partial",
    "C182_refuted"
   ],
   "note": "Refuted for runs stopped by max_iter (the values belong to the coefficients before the last update); proved of every run that one more iteration does not change."
  },
  {
   "property": "C183",
   "status": "partial",
   "theorems": [
    "C183_loglik_partial",
    "C183_refuted"
   ],
   "note": "Refuted: the constant - n ln(2 pi) is missing. Proved up to the constant, of every run that one more iteration does not change."
  },
  {
   "property": "C184",
   "status": "proved",
   "theorems": [
    "C184_stationary"
   ],
   "note": ""
  },
  {
   "property": "C185",
   "status": "proved",
   "theorems": [
    "C185_stationary"
   ],
   "note": ""
  },
  {
   "property": "C186",
   "status": "partial",
   "theorems": [
    "C186_stationary_partial",
    "C186_refuted"
   ],
   "note": "Refuted for beta: its right-hand side uses theta - mu instead of the residual and omits the current beta. Proved for alpha and gamma."
  },
  {
   "property": "C187",
   "status": "proved",
   "theorems": [
    "C187_solver",
    "C187_lengths",
    "C187_standard_errors"
   ],
   "note": ""
  },
  {
   "property": "C188",
   "status": "proved",
   "theorems": [
    "C188_turned_mean",
    "C188_turned",
    "C188_reordered"
   ],
   "note": "For the concentration and mixed models turning assumes that no iterate has a zero weighted resultant (then mu is not defined)."
  },
  {
   "property": "C189",
   "status": "partial",
   "theorems": [
    "C189_refuted"
   ],
   "note": "Refuted: the ridge 1e-8 is added whatever the units; nothing weaker is claimed."
  },
  {
   "property": "C190",
   "status": "partial",
   "theorems": [
    "C190_criteria_partial",
    "C190_refuted"
   ],
   "note": "Refuted: mu (and kappa in the mean model) are not counted, and not by the same number in all models. Proved with the counts used."
  },
  {
   "property": "C191",
   "status": "partial",
   "theorems": [
    "C191_predict_partial",
    "C191_one_predictor",
    "C191_bad_inputs",
    "C191_no_coefficients",
    "C191_refuted"
   ],
   "note": "Refuted for the concentration model with beta0. Proved for the other models and without beta0; scalars raise IndexError."
  },
  {
   "property": "C192",
   "status": "partial",
   "theorems": [
    "C192_outcomes_partial",
    "C192_no_iteration",
    "C192_constant",
    "C192_refuted"
   ],
   "note": "Refuted: max_iter = 0 raises UnboundLocalError and a constant response gives NaN. Proved otherwise: with an iteration only ValueError is raised, and the concentration and mixed models give numbers."
  },
  {
   "property": "C193",
   "status": "partial",
   "theorems": [
    "C193_mean_partial",
    "C193_concentration_partial",
    "C193_beta_refuted",
    "C193_kappa_refuted"
   ],
   "note": "Proved: alpha and gamma (orthogonal to the location, up to the ridge), kappa of the mean model, beta with mu known, mu with the others known times 1 - p/n or minus 1/2. Refuted: beta ignores that mu is estimated (half the variance missing), and the standard errors of the concentrations of the observations."
  },
  {
   "property": "C194",
   "status": "proved",
   "theorems": [
    "C194_rejection",
    "C194_flat",
    "C194_vonmises"
   ],
   "note": "The envelope of the code is above the public density at every angle. Random numbers are arguments; that draws of vonmises.rvs and rng.uniform follow their laws is assumed, not modelled."
  },
  {
   "property": "C195",
   "status": "partial",
   "theorems": [
    "C195_rejection_partial",
    "C195_envelope_refuted",
    "C195_guard"
   ],
   "note": "C195_envelope_refuted: with kappa = 14, psi = -1, nu = 1/650 the peak lies between two grid angles and the envelope is below a quarter of the density there. C195_rejection_partial proves the envelope for kappa ((1 + nu) cosh(kappa psi) + 4/3) <= 21/2 and the acceptance rule always."
  },
  {
   "property": "C196",
   "status": "proved",
   "theorems": [
    "C196_density",
    "C196_moment"
   ],
   "note": "For gamma functions characterised by Bohr and Mollerup; the normalising constant is proved from that."
  },
  {
   "property": "C197",
   "status": "partial",
   "theorems": [
    "C197_refuted",
    "C197_partial"
   ],
   "note": "Refuted: within about 6.3e-5 below 2 pi np.isclose makes the cdf 1 (no admissible parameters escape).  Exact for x <= 2 pi - 9e-5."
  },
  {
   "property": "C198",
   "status": "proved",
   "theorems": [
    "C198_quantile"
   ],
   "note": "scipy's betainc and betaincinv are assumed to be the regularised incomplete beta integral and a right inverse."
  },
  {
   "property": "C199",
   "status": "proved",
   "theorems": [
    "C199_law",
    "C199_rejects"
   ],
   "note": "The draws of rng.beta and rng.random are inputs; the law of t is scipy's."
  },
  {
   "property": "C200",
   "status": "partial",
   "theorems": [
    "C200_partial",
    "C200_refuted",
    "C200_gradient"
   ],
   "note": "Refuted for an observation opposite to mu: density 0, finite log-likelihood (floor 1e-15).  Proved when every 1 + cos(x - mu) is at least 1e-15; the gradient when it exceeds 1e-15."
  },
  {
   "property": "C201",
   "status": "proved",
   "theorems": [
    "C201_moments",
    "C201_total",
    "C201_rejects",
    "C201_mle",
    "C201_failure"
   ],
   "note": "The optimiser is an input; its contract is bounded_min in CwSpec.v."
  },
  {
   "property": "C202",
   "status": "proved",
   "theorems": [
    "C202_moments",
    "C202_total",
    "C202_rejects"
   ],
   "note": ""
  },
  {
   "property": "C203",
   "status": "proved",
   "theorems": [
    "C203_mle",
    "C203_stationary"
   ],
   "note": "The optimiser is an oracle; its contract is box_min."
  },
  {
   "property": "C204",
   "status": "partial",
   "theorems": [
    "C204_partial",
    "C204_refuted",
    "C204_total"
   ],
   "note": "The log-likelihood claim is refuted for concentrated samples (denominator floored at 1e-15); proved when the floor is inactive."
  },
  {
   "property": "C205",
   "status": "proved",
   "theorems": [
    "C205_stationary",
    "C205_mle"
   ],
   "note": "The optimiser is an oracle; its contract is box_min."
  },
  {
   "property": "C206",
   "status": "proved",
   "theorems": [
    "C206_density",
    "C206_info",
    "C206_moments",
    "C206_rejects"
   ],
   "note": "brentq is an oracle; its contract is the hypothesis of C206_info."
  },
  {
   "property": "C207",
   "status": "proved",
   "theorems": [
    "C207_circularuniform",
    "C207_triangular",
    "C207_cardioid"
   ],
   "note": ""
  },
  {
   "property": "C208",
   "status": "partial",
   "theorems": [
    "C208_partial",
    "C208_refuted_rho",
    "C208_refuted_method"
   ],
   "note": "Proved for cardioid; refuted for triangular: rvs does not check rho and fit treats every method name other than 'moments' as 'mle'."
  },
  {
   "property": "C209",
   "status": "partial",
   "theorems": [
    "C209_override_partial",
    "C209_keeps",
    "C209_true",
    "C209_spine_hidden",
    "C209_refuted"
   ],
   "note": "User values and unmentioned defaults are proved to end up where they should, at every depth; True at the first level is the default value, so for the documented option spine (default False) {\"spine\": True} is refuted: the spine is hidden in every plot."
  },
  {
   "property": "C210",
   "status": "partial",
   "theorems": [
    "C210_single_partial",
    "C210_no_median",
    "C210_grouped",
    "C210_grouped_needs",
    "C210_grouped_off",
    "C210_refuted"
   ],
   "note": "Proved for ungrouped objects with a median. Refuted otherwise: an ungrouped object without a median raises AttributeError (median_lb is never set), and every grouped object raises (no mixture: AttributeError; with one: KeyError on the undocumented rlim_max). Also proved: what a grouped object needs in order to be drawn, and a configuration that draws every one."
  },
  {
   "property": "C211",
   "status": "partial",
   "theorems": [
    "C211_rose_partial",
    "C211_counted",
    "C211_refuted"
   ],
   "note": "Number, centres, width and heights of the bars proved for every number of bins. Refuted for angles outside [0, 2 pi], which the constructor keeps: observations at -90 degrees are in no bar. The counts are proved to add up to the number of angles in [0, 2 pi]."
  },
  {
   "property": "C212",
   "status": "proved",
   "theorems": [
    "C212_markers"
   ],
   "note": "Exact arithmetic: the radii np.arange gives are taken as the multiples of 0.05."
  },
  {
   "property": "C213",
   "status": "partial",
   "theorems": [
    "C213_mean_partial",
    "C213_median_partial",
    "C213_refuted"
   ],
   "note": "Proved for intervals of two distinct bounds, mean and median. Refuted for an interval that is one point: three equal observations have the median interval (m, m), drawn as the whole circle."
  },
  {
   "property": "C214",
   "status": "partial",
   "theorems": [
    "C214_density",
    "C214_points_partial",
    "C214_area_partial",
    "C214_refuted",
    "C214_wide",
    "C214_bandwidth_refuted"
   ],
   "note": "Proved for observations in [0, 2 pi] and bandwidths up to pi. Refuted for other names of the directions: abs(x - a) above 2 pi makes the distance negative, and an observation at -90 degrees raises the density a quarter turn away. Refuted for the bandwidth compute_smooth_params returns: it can exceed pi, and the total is then below 1."
  },
  {
   "property": "C215",
   "status": "proved",
   "theorems": [
    "C215_density"
   ],
   "note": "nonparametric_density_estimation and predict_density are arguments; the former is C214's."
  },
  {
   "property": "C216",
   "status": "partial",
   "theorems": [
    "C216_movm_partial",
    "C216_movm_refuted",
    "C216_mokj",
    "C216_mocd_partial",
    "C216_mocd_refuted",
    "C216_unfitted"
   ],
   "note": "Proved for MoKJ after every fit, for MovM whenever the fit left no NaN, and for MoCD with families whose fits give positive densities. Refuted for MovM after a balanced start (all NaN) and for MoCD(wrapnorm) on concentrated data (negative density)."
  },
  {
   "property": "C217",
   "status": "proved",
   "theorems": [
    "C217_movm_mokj",
    "C217_mocd"
   ],
   "note": ""
  },
  {
   "property": "C218",
   "status": "proved",
   "theorems": [
    "C218_methods",
    "C218_empty",
    "C218_names"
   ],
   "note": "param_names are taken to be distinct."
  },
  {
   "property": "C219",
   "status": "partial",
   "theorems": [
    "C219_choice_partial",
    "C219_balanced",
    "C219_refuted",
    "C219_room",
    "C219_float_weights"
   ],
   "note": "Proved: the candidates, their BIC and the choice for every sample that yields an object; K above the number of observations raises ValueError and float weights raise TypeError. Refuted: not every candidate has a BIC; a sample with zero resultant has NaN for one component and so is never reported unimodal."
  },
  {
   "property": "C220",
   "status": "proved",
   "theorems": [
    "C220_turned",
    "C220_rotate",
    "C220_grouped"
   ],
   "note": "For the same drawn labellings (the generator has a fixed seed and sees only the sample size and k)."
  },
  {
   "property": "C221",
   "status": "partial",
   "theorems": [
    "C221_tables_partial",
    "C221_order",
    "C221_sign_refuted"
   ],
   "note": "Proved: rows, standard errors, p-values, marks, and the signed t values of alpha and gamma. Refuted: the t value of beta is |estimate| / standard error, positive for a negative coefficient."
  },
  {
   "property": "C222",
   "status": "partial",
   "theorems": [
    "C222_table_partial",
    "C222_names_refuted"
   ],
   "note": "Proved: labels read as x1, x2, ... for the first, second, ... predictor match the coefficients. Refuted: the labels are not the feature names; with predictors named x0 and x1 the row labelled x1 belongs to x0."
  },
  {
   "property": "C223",
   "status": "partial",
   "theorems": [
    "C223_level_partial",
    "C223_fifteen_refuted",
    "C223_cut_refuted"
   ],
   "note": "Proved for 3 to 14 observations when the circle is cut at a direction that the sides do not cross. Refuted for 15 observations (reported 0.965, covers with probability above 0.992) and for a median at direction 0 (never covered)."
  },
  {
   "property": "C224",
   "status": "partial",
   "theorems": [
    "C224_lines_partial",
    "C224_values",
    "C224_units",
    "C224_raises",
    "C224_raises_refuted"
   ],
   "note": "Proved: the lines and the change of unit. Refuted: the summary of grouped data with several medians and return_average=False raises TypeError; proved to be the only failure."
  },
  {
   "property": "C225",
   "status": "partial",
   "theorems": [
    "C225_default_partial",
    "C225_refuted"
   ],
   "note": "Proved for the default kwargs_mean_ci and a mean that is not NaN. Refuted with kwargs_mean_ci given and p >= 0.05: the method is named and no interval printed."
  },
  {
   "property": "C226",
   "status": "proved",
   "theorems": [
    "C226_times",
    "C226_fields",
    "C226_clock"
   ],
   "note": ""
  },
  {
   "property": "C227",
   "status": "partial",
   "theorems": [
    "C227_none",
    "C227_stars",
    "C227_order",
    "C227_nan_refuted"
   ],
   "note": "The last clause is false: NaN is reported as the empty code, as for p = 0.5 (C227_nan_refuted). The rest is proved."
  },
  {
   "property": "C228",
   "status": "proved",
   "theorems": [
    "C228_length",
    "C228_values"
   ],
   "note": ""
  },
  {
   "property": "C229",
   "status": "partial",
   "theorems": [
    "C229_seed",
    "C229_generator",
    "C229_legacy",
    "C229_held",
    "C229_first",
    "C229_reseed_partial",
    "C229_reseed_refuted"
   ],
   "note": "Seeds, generators, RandomStates and held streams proved for every distribution and history; reseeding numpy proved for the distributions that go through rvs of scipy and refuted for the others."
  }
 ]
}