{"id": "C01", "title": "angmod returns the canonical representative", "statement": "angmod(rad, [lo, hi]) raises ValueError exactly when the bounds do not have two entries or lo >= hi; otherwise the result lies in [lo, hi) and differs from rad by a whole number of spans hi-lo, and it is the only such value. Hence it is idempotent and unchanged by adding whole spans to rad.", "quantifier": "every real angle, every pair of bounds, every integer number of spans", "why_tests_cant": "The claim ranges over all reals and all bounds, including arbitrarily negative angles and angles on a bound; tests pick finitely many.", "anchors": ["pycircstat2/utils.py:angmod"]}
{"id": "C02", "title": "angular_distance is a metric on the circle", "statement": "angular_distance(a, b) lies in [0, pi], is 0 exactly when a and b name the same direction, is symmetric, satisfies the triangle inequality, equals the length of the shorter arc, and does not change when both angles are rotated together or either is shifted by whole turns.", "quantifier": "every two or three real angles, every rotation, every integer number of turns", "why_tests_cant": "The triangle inequality and the zero case quantify over all triples of reals.", "anchors": ["pycircstat2/utils.py:angular_distance", "pycircstat2/utils.py:angmod"]}
{"id": "C03", "title": "is_within_circular_range is counter-clockwise arc membership", "statement": "is_within_circular_range(v, lb, ub) is true exactly when walking counter-clockwise from lb one meets v no later than ub; therefore it is unchanged by adding whole turns to any argument and by rotating all three, and the complement arc test (ub, lb) is false strictly inside.", "quantifier": "every three real angles, all rotations and turns", "why_tests_cant": "The wrap-around branch depends on where the interval straddles 0; only a proof covers every position.", "anchors": ["pycircstat2/utils.py:is_within_circular_range"]}
{"id": "C04", "title": "rotate_data is a group action on directions", "statement": "For unit degree, radian or hour, rotate_data(alpha, x) keeps the length, maps every entry into [0, full cycle), moves each direction by exactly x modulo a full cycle; rotating by x then y equals rotating by x+y, and rotating by x then -x gives back the entry reduced to the cycle. Any other unit raises ValueError.", "quantifier": "every list of angles, every pair of rotation amounts, the three units, every other unit string", "why_tests_cant": "Composition must hold for every pair of rotations and every list.", "anchors": ["pycircstat2/utils.py:rotate_data", "pycircstat2/utils.py:angmod", "pycircstat2/utils.py:data2rad", "pycircstat2/utils.py:rad2data"]}
{"id": "C05", "title": "data2rad and rad2data are inverse", "statement": "For every cycle length k different from 0, rad2data(data2rad(x, k), k) = x and data2rad(rad2data(x, k), k) = x; one full cycle maps to 2 pi; the maps are additive, so a shift by m cycles is a shift by m turns.", "quantifier": "every real datum and every non-zero cycle length", "why_tests_cant": "Quantifies over all real data and cycle lengths.", "anchors": ["pycircstat2/utils.py:data2rad", "pycircstat2/utils.py:rad2data"]}
{"id": "C06", "title": "significance codes are antitone in the p-value", "statement": "significance_code is a step function of p: a smaller p-value never receives fewer stars, and the codes change exactly at 0.001, 0.01, 0.05 and 0.1.", "quantifier": "every pair of real p-values", "why_tests_cant": "Monotonicity over all pairs of reals.", "anchors": ["pycircstat2/utils.py:significance_code"]}
{"id": "C07", "title": "Mean resultant length lies in [0, 1]", "statement": "For every non-empty sample with non-negative weights of positive total, circ_r returns a value in [0, 1]; so circ_var without bin correction is in [0, 1] and angular_var in [0, 2].", "quantifier": "every finite sample and weight vector", "why_tests_cant": "Needs the Cauchy-Schwarz/triangle inequality for every n and every angle vector.", "anchors": ["pycircstat2/descriptive.py:circ_r", "pycircstat2/descriptive.py:compute_C_and_S", "pycircstat2/descriptive.py:circ_var", "pycircstat2/descriptive.py:angular_var"]}
{"id": "C08", "title": "Resultant length is 1 exactly for coincident directions", "statement": "circ_r = 1 if and only if all observations with positive weight have the same direction modulo 2 pi.", "quantifier": "every finite weighted sample", "why_tests_cant": "An equality case of an inequality over all samples; no finite set of samples can show the only-if part.", "anchors": ["pycircstat2/descriptive.py:circ_r", "pycircstat2/descriptive.py:compute_C_and_S"]}
{"id": "C09", "title": "Resultant length is a circle invariant", "statement": "circ_r does not change when all angles are rotated by the same amount, all are reflected, any angle is shifted by whole turns, observations (with weights) are permuted, or all weights are multiplied by a positive constant.", "quantifier": "every sample, rotation, permutation, integer turn vector, positive scale", "why_tests_cant": "Quantifies over all permutations and rotations.", "anchors": ["pycircstat2/descriptive.py:circ_r", "pycircstat2/descriptive.py:compute_C_and_S"]}
{"id": "C10", "title": "Grouped data equal expanded data", "statement": "For integer weights, circ_r, circ_mean and circ_mean_and_r on (alpha, w) equal the same function on the sample in which alpha[i] is repeated w[i] times.", "quantifier": "every sample and every vector of natural-number weights with positive total", "why_tests_cant": "Must hold for every multiplicity vector.", "anchors": ["pycircstat2/descriptive.py:compute_C_and_S", "pycircstat2/descriptive.py:circ_mean", "pycircstat2/descriptive.py:circ_r", "pycircstat2/descriptive.py:circ_mean_and_r", "pycircstat2/hypothesis.py:_CircularSample.expand"]}
{"id": "C11", "title": "Mean direction is equivariant", "statement": "When the mean direction is defined, circ_mean(alpha + t) is the direction circ_mean(alpha) + t, circ_mean(-alpha) is the direction -circ_mean(alpha), the result lies in [0, 2 pi), permuting the sample or adding whole turns leaves it unchanged; and whether it is defined (NaN or not) is itself invariant.", "quantifier": "every weighted sample, every rotation, permutation, turns", "why_tests_cant": "Equivariance crosses the 0/2 pi cut and quadrant changes of atan2 for every rotation.", "anchors": ["pycircstat2/descriptive.py:circ_mean", "pycircstat2/descriptive.py:circ_mean_and_r", "pycircstat2/descriptive.py:compute_C_and_S", "pycircstat2/utils.py:angmod"]}
{"id": "C12", "title": "The mean direction balances and maximises", "statement": "When defined, the mean direction m satisfies sum w_i sin(alpha_i - m) = 0 and sum w_i cos(alpha_i - m) = R > 0, and for every other direction t, sum w_i cos(alpha_i - t) <= sum w_i cos(alpha_i - m); equivalently m minimises the total angular-separation distance.", "quantifier": "every weighted sample and every competitor direction", "why_tests_cant": "Optimality against a continuum of competitor directions.", "anchors": ["pycircstat2/descriptive.py:circ_mean", "pycircstat2/descriptive.py:circ_r", "pycircstat2/descriptive.py:circ_dist"]}
{"id": "C13", "title": "circ_mean and circ_mean_and_r agree", "statement": "circ_mean(alpha, w) is the first component of circ_mean_and_r(alpha, w) and circ_r(alpha, w) is the second, for every sample.", "quantifier": "every weighted sample", "why_tests_cant": "The two entry points use different zero tolerances (1e-8 and 1e-12), so a discrepancy exists only on a tiny set of samples that random tests miss.", "anchors": ["pycircstat2/descriptive.py:circ_mean", "pycircstat2/descriptive.py:circ_mean_and_r", "pycircstat2/descriptive.py:circ_r"]}
{"id": "C14", "title": "Pooling means reproduces the pooled sample", "statement": "circ_mean_and_r_of_means applied to groups of equal size returns the mean direction and resultant length of the concatenated sample; for one group it returns that group's mean and r.", "quantifier": "every number of equal-size groups and every group content", "why_tests_cant": "Quantifies over all partitions.", "anchors": ["pycircstat2/descriptive.py:circ_mean_and_r_of_means", "pycircstat2/descriptive.py:circ_mean_and_r"]}
{"id": "C15", "title": "Measures of spread are consistent", "statement": "circ_std >= 0 is 0 exactly when r = 1 and grows as r shrinks; angular_std^2 = angular_var = 2 circ_var; the four measures order samples in the same way (all are decreasing functions of r).", "quantifier": "every r in (0, 1] and every pair of samples", "why_tests_cant": "Ordering over all pairs of real r.", "anchors": ["pycircstat2/descriptive.py:circ_std", "pycircstat2/descriptive.py:circ_var", "pycircstat2/descriptive.py:angular_std", "pycircstat2/descriptive.py:angular_var"]}
{"id": "C16", "title": "circ_dist metrics describe one geometry", "statement": "For all angles: 'center' is in (-pi, pi] and congruent to x-y; its absolute value equals angular_distance; 'chord' = 2 sin(d/2), 'angularseparation' = 1 - cos d where d is the arc distance; hence center (absolute), chord and angular separation order pairs in the same way and all depend only on directions.", "quantifier": "every pair of real angles and any whole turns", "why_tests_cant": "Quantifies over all real pairs and turns.", "anchors": ["pycircstat2/descriptive.py:circ_dist", "pycircstat2/utils.py:angular_distance"]}
{"id": "C17", "title": "Geodesic circ_dist is the arc length for all angles", "statement": "circ_dist(x, y, 'geodesic') equals the shorter arc between the directions x and y, in particular is unchanged by adding a whole turn to either angle.", "quantifier": "every pair of real angles", "why_tests_cant": "The formula pi-|pi-|x-y|| is right only for |x-y| <= 2 pi; tests use angles in one turn.", "anchors": ["pycircstat2/descriptive.py:circ_dist", "pycircstat2/descriptive.py:circ_mean_deviation"]}
{"id": "C18", "title": "Chunked mean deviation equals the direct one", "statement": "circ_mean_deviation_chunked(alpha, beta, chunk) equals circ_mean_deviation(alpha, beta) for every positive chunk size, and raises ValueError for non-positive chunk sizes; the output has one entry per beta.", "quantifier": "every pair of arrays and every chunk size", "why_tests_cant": "All chunk boundaries relative to all lengths.", "anchors": ["pycircstat2/descriptive.py:circ_mean_deviation_chunked", "pycircstat2/descriptive.py:circ_mean_deviation"]}
{"id": "C19", "title": "The deviation median minimises the (rounded) mean deviation over the sample", "statement": "circ_median(method='deviation') before averaging returns exactly the data points whose mean deviation, rounded to 5 decimals, is minimal among the data points, or NaN when every point ties; with one candidate the result is that data point.", "quantifier": "every ungrouped sample", "why_tests_cant": "Minimality over all members of all samples.", "anchors": ["pycircstat2/descriptive.py:_circ_median_mean_deviation", "pycircstat2/descriptive.py:circ_median"]}
{"id": "C20", "title": "compute_hdi returns a shortest arc with the required number of samples", "statement": "For 0 < ci < 1 and a non-empty sample, the returned pair bounds an arc starting and ending at samples, that contains at least max(1, floor(ci n)) sample directions, and no arc with fewer than its length contains that many samples; otherwise ValueError.", "quantifier": "every sample and every level ci", "why_tests_cant": "Optimality over all arcs of the circle, including arcs across 0.", "anchors": ["pycircstat2/descriptive.py:compute_hdi"]}
{"id": "C21", "title": "circ_range is the length of the shortest covering arc", "statement": "circ_range(alpha) lies in [0, 2 pi (1 - 1/n)], there is an arc of that length containing all directions, and no shorter arc contains them; it is invariant under rotation, whole turns, reflection and permutation.", "quantifier": "every non-empty sample, every candidate arc, every rotation", "why_tests_cant": "Optimality over a continuum of arcs and rotation over the 0 cut.", "anchors": ["pycircstat2/descriptive.py:circ_range"]}
{"id": "C22", "title": "A mean confidence interval contains the mean", "statement": "Whenever circ_mean_ci with method 'approximate' or 'dispersion' returns (lb, ub), the mean direction lies on the counter-clockwise arc from lb to ub, the arc is symmetric about the mean, its half-width is at most pi/2, and a larger critical value gives a wider arc.", "quantifier": "every mean direction, resultant length, n, and critical value for which no error is raised", "why_tests_cant": "The interval wraps around 0 for some means; containment must hold for all.", "anchors": ["pycircstat2/descriptive.py:circ_mean_ci", "pycircstat2/descriptive.py:_circ_mean_ci_approximate", "pycircstat2/descriptive.py:_circ_mean_ci_dispersion", "pycircstat2/utils.py:is_within_circular_range"]}
{"id": "C23", "title": "circ_median_ci never indexes out of range", "statement": "For every sample with n > 15 and every level ci, circ_median_ci(median, alpha) selects two order statistics of the sample without raising IndexError.", "quantifier": "every sample size, every median position, every level", "why_tests_cant": "The failing index occurs only when the rank of the median plus the offset hits n exactly.", "anchors": ["pycircstat2/descriptive.py:circ_median_ci"]}
{"id": "C24", "title": "circ_kappa is a monotone concentration estimate", "statement": "For r in [0, 1), circ_kappa(r) is non-negative and non-decreasing in r, and a perfectly concentrated sample (r = 1) does not get a smaller concentration than any other sample.", "quantifier": "every pair r <= r' in [0, 1]", "why_tests_cant": "Monotonicity over all pairs; the breaks are at the branch points 0.53, 0.85 and 1.", "anchors": ["pycircstat2/descriptive.py:circ_kappa", "pycircstat2/utils.py:A1inv"]}
{"id": "C25", "title": "Circular quantiles are rotation equivariant order statistics", "statement": "When the circular median is defined, circ_quantile returns angles in [0, 2 pi); prob 0 and 1 give the clockwise-most and counter-clockwise-most observation seen from the median; quantiles are monotone in prob when unrolled around the median; rotating the data rotates the quantiles.", "quantifier": "every sample, every probability pair, every rotation", "why_tests_cant": "Quantifies over all samples and probabilities.", "anchors": ["pycircstat2/descriptive.py:circ_quantile", "pycircstat2/descriptive.py:circ_median"]}
{"id": "C26", "title": "Rayleigh p-value is a valid monotone p-value", "statement": "For every n >= 1 and 0 <= r <= 1, rayleigh_test returns z = n r^2 and 0 < pval <= 1, pval = 1 exactly at r = 0, and pval strictly decreases as r increases; r outside [0, 1] or n <= 0 raises ValueError.", "quantifier": "every positive integer n and every real r in [0, 1]", "why_tests_cant": "Bounds and monotonicity over all reals and all n.", "anchors": ["pycircstat2/hypothesis.py:rayleigh_test"]}
{"id": "C27", "title": "Monte Carlo p-values are never zero and never exceed one", "statement": "For every random draw, the simulated p-values of rayleigh_test (bootstrap), kuiper_test, watson_test, rao_spacing_test and angular_randomisation_test are (1 + number of simulated statistics >= observed)/(B + 1): a multiple of 1/(B+1) in [1/(B+1), 1], antitone in the observed statistic.", "quantifier": "every simulation outcome, every number of simulations, every observed statistic", "why_tests_cant": "Holds for every random stream, not for the seeded stream a test runs.", "anchors": ["pycircstat2/hypothesis.py:rayleigh_test", "pycircstat2/hypothesis.py:kuiper_test", "pycircstat2/hypothesis.py:watson_test", "pycircstat2/hypothesis.py:rao_spacing_test", "pycircstat2/hypothesis.py:angular_randomisation_test"]}
{"id": "C28", "title": "V-test statistic is the resultant projected on the hypothesised direction", "statement": "For every sample with defined mean, V_test computes V = sum w_i cos(alpha_i - angle), so |V| <= n r <= n; V depends on angle only modulo 2 pi and is maximal exactly when angle is the mean direction; rotating data and angle together leaves V and u unchanged.", "quantifier": "every weighted sample and every hypothesised angle", "why_tests_cant": "Identity over all samples and angles.", "anchors": ["pycircstat2/hypothesis.py:V_test", "pycircstat2/descriptive.py:circ_mean_and_r", "pycircstat2/utils.py:angmod"]}
{"id": "C29", "title": "One-sample test inverts the confidence interval", "statement": "one_sample_test(angle, lb, ub) rejects exactly when the direction `angle` is not on the counter-clockwise arc from lb to ub; the decision is unchanged by whole turns of any argument and joint rotation; the sample mean itself is never rejected.", "quantifier": "every angle and interval, every rotation", "why_tests_cant": "All positions of the interval relative to the cut.", "anchors": ["pycircstat2/hypothesis.py:one_sample_test", "pycircstat2/descriptive.py:circ_mean_ci", "pycircstat2/utils.py:is_within_circular_range"]}
{"id": "C30", "title": "Hodges-Ajne omnibus test is invariant and valid", "statement": "omnibus_test returns m = the minimum number of observations in any closed half circle, so the result does not depend on the choice of zero direction, and pval is a p-value in (0, 1] that is large for evenly spread data.", "quantifier": "every sample and every rotation of it", "why_tests_cant": "Rotation invariance over a continuum of rotations; the code scans only half of the diameters on a grid.", "anchors": ["pycircstat2/hypothesis.py:omnibus_test"]}
{"id": "C31", "title": "Batschelet and binomial test counts partition the sample", "statement": "batschelet_test: C counts exactly the observations not strictly within 90 degrees of the hypothesised angle, 0 <= C <= n. binomial_test: n1 + n2 = n_eff, n1 and n2 count directions strictly clockwise / counter-clockwise of md, ties (equal or opposite handled on one side) are accounted for, reflecting the data about md swaps n1 and n2 up to antipodal points; the p-value lies in [0, 1].", "quantifier": "every sample and every reference direction", "why_tests_cant": "Counting identities for all samples incl. boundary points.", "anchors": ["pycircstat2/hypothesis.py:batschelet_test", "pycircstat2/hypothesis.py:binomial_test", "pycircstat2/descriptive.py:circ_dist"]}
{"id": "C32", "title": "Multi-sample resultants satisfy the triangle inequality", "statement": "For any groups, the pooled resultant R is at most the sum of group resultants and at most N; therefore the Watson-Williams F statistic and circ_anova's SS_between, SS_within are non-negative, SS_total = SS_between + SS_within, F = 0 iff all group resultant vectors are parallel.", "quantifier": "every number of groups, sizes and contents", "why_tests_cant": "Inequality over all group structures.", "anchors": ["pycircstat2/hypothesis.py:watson_williams_test", "pycircstat2/hypothesis.py:circ_anova", "pycircstat2/descriptive.py:circ_r"]}
{"id": "C33", "title": "Group tests are rotation and order invariant", "statement": "watson_williams_test and circ_anova (F-test) statistics do not change when all samples are rotated by a common angle, groups are reordered, or observations inside groups are permuted.", "quantifier": "every group structure, rotation and permutation", "why_tests_cant": "Quantifies over all rotations and permutations.", "anchors": ["pycircstat2/hypothesis.py:watson_williams_test", "pycircstat2/hypothesis.py:circ_anova"]}
{"id": "C34", "title": "Kuiper's V is origin independent", "statement": "For samples whose angles lie within one turn of each other, kuiper_test's whole result is unchanged by rotating all directions by any angle (wrapped), by reflection and by permuting; V lies between f(n)/n (exactly the equally spaced samples) and f(n) (exactly the samples with all angles equal).", "quantifier": "every sample, every rotation", "why_tests_cant": "The whole point of Kuiper's statistic is invariance over a continuum of rotations; tests check a few.", "anchors": ["pycircstat2/hypothesis.py:kuiper_test"]}
{"id": "C35", "title": "Watson's U2 is origin independent", "statement": "For samples whose angles lie within one turn of each other, watson_test's whole result is unchanged by any rotation (wrapped), reflection and permutation, and U2 >= 1/(12 n) with equality exactly for equally spaced samples.", "quantifier": "every sample, every rotation", "why_tests_cant": "Invariance over a continuum of rotations for every n.", "anchors": ["pycircstat2/hypothesis.py:watson_test"]}
{"id": "C36", "title": "Rao's spacing statistic is origin independent and bounded", "statement": "For samples in [0, 2 pi), rao_spacing_test's statistic lies in [0, 360 (1 - 1/n)] degrees, is 0 exactly for equally spaced samples, attains the maximum iff all directions coincide, and is unchanged by rotations (wrapped), reflection and permutation.", "quantifier": "every sample, every rotation", "why_tests_cant": "Bounds and invariance over all samples.", "anchors": ["pycircstat2/hypothesis.py:rao_spacing_test"]}
{"id": "C37", "title": "Circular range test p-value is a probability, increasing in the range", "statement": "circ_range_test's p-value lies in [0, 1] for every sample of angles in [-2 pi, 2 pi]; it is 1 exactly for equally spaced samples, 0 exactly when two or more directions all coincide, strictly larger for a larger range at the same sample size, and unchanged by rotating, reflecting or permuting the sample.", "quantifier": "every n and every attainable range", "why_tests_cant": "Alternating series over all n and a continuum of ranges.", "anchors": ["pycircstat2/hypothesis.py:circ_range_test", "pycircstat2/descriptive.py:circ_range"]}
{"id": "C38", "title": "Concentration test does not depend on the order of the samples", "statement": "concentration_test(a, b) and concentration_test(b, a) return reciprocal F statistics, swapped degrees of freedom and the same p-value, which lies in [0, 1]; it raises ValueError exactly when a sample has fewer than two observations or is fully concentrated.", "quantifier": "every pair of samples, every survival function of the F family", "why_tests_cant": "Symmetry over all pairs of samples.", "anchors": ["pycircstat2/hypothesis.py:concentration_test"]}
{"id": "C39", "title": "Rao homogeneity statistics are non-negative", "statement": "H_polar and H_disp are non-negative whenever they are defined, are zero when all groups have equal ratios (respectively equal squared lengths), and each 1/n-scaled variance term is non-negative.", "quantifier": "every group structure", "why_tests_cant": "Weighted Cauchy-Schwarz over all groups.", "anchors": ["pycircstat2/hypothesis.py:rao_homogeneity_test"]}
{"id": "C40", "title": "Change point statistic bounds", "statement": "change_point_test's R_diff sequence is non-negative, 0 at the last index, at most 2 min(k, n-k); so 0 <= rave <= rmax <= n, and the reported k_r attains rmax; T statistics are maximal over admissible split points 2 <= k <= n-2 and k_t, like k_r, points at the maximising split.", "quantifier": "every sequence of angles of every length >= 4", "why_tests_cant": "Quantifies over all sequences and split points.", "anchors": ["pycircstat2/hypothesis.py:change_point_test"]}
{"id": "C41", "title": "Two-way circular ANOVA decomposes", "statement": "In harrison_kanji_test with interaction, the sums of squares of A, B, interaction and residual add up to the total, degrees of freedom add up likewise, and every main effect and the residual are non-negative.", "quantifier": "every two-factor layout with no empty cells", "why_tests_cant": "Decomposition over all layouts.", "anchors": ["pycircstat2/hypothesis.py:harrison_kanji_test"]}
{"id": "C42", "title": "Two-sample Watson U2 is a function of the samples as sets", "statement": "watson_u2_test's statistic does not depend on the order in which observations are listed, and its p-value is a probability.", "quantifier": "every pair of samples and all permutations", "why_tests_cant": "Order dependence appears only for unsorted input.", "anchors": ["pycircstat2/hypothesis.py:watson_u2_test"]}
{"id": "C43", "title": "Wallraff's U statistics are complementary", "statement": "wallraff_test: U1 + U2 = n1 n2 and 0 <= U <= n1 n2 / 2 for every pair of ungrouped samples, swapping the samples leaves U unchanged, and the distances depend on directions only.", "quantifier": "every pair of samples", "why_tests_cant": "Rank-sum identity with ties for all samples.", "anchors": ["pycircstat2/hypothesis.py:wallraff_test", "pycircstat2/utils.py:angular_distance"]}
{"id": "C44", "title": "Common median test statistic", "statement": "common_median_test's statistic P is non-negative, is zero iff every group has the same proportion on the negative side, and equals the Pearson chi-square statistic of the 2 x k table.", "quantifier": "every group structure with 0 < M < N", "why_tests_cant": "Algebraic identity over all tables.", "anchors": ["pycircstat2/hypothesis.py:common_median_test"]}
{"id": "C45", "title": "Fisher-Lee correlation is a correlation", "statement": "circ_corrcc(method='fl') returns r in [-1, 1], symmetric in a and b, invariant under rotating either variable and under whole turns and joint permutation of the pairs, changes sign under reflection of one variable, and equals 1 for b = a + t, -1 for b = -a + t.", "quantifier": "every pair of equal-length samples (n >= 2) with non-degenerate denominators; all rotations/permutations", "why_tests_cant": "Cauchy-Schwarz over all samples.", "anchors": ["pycircstat2/correlation.py:circ_corrcc", "pycircstat2/correlation.py:_circ_corrcc_fl"]}
{"id": "C46", "title": "Jammalamadaka-SenGupta correlation is a correlation", "statement": "circ_corrcc(method='js') returns r in [-1, 1], symmetric, rotation invariant in each variable, sign-changing under reflection, and 1 when b is a rotation of a; strict mode raises when a Circular sample's mean is not significant.", "quantifier": "every pair of samples with defined means; all rotations", "why_tests_cant": "Inequality/invariance over all samples.", "anchors": ["pycircstat2/correlation.py:circ_corrcc", "pycircstat2/correlation.py:_circ_corrcc_js", "pycircstat2/correlation.py:_coerce_angles", "pycircstat2/base.py:Circular"]}
{"id": "C47", "title": "Rank correlation bounds", "statement": "circ_corrcc(method='nonparametric') returns r in [-1, 1], symmetric in its arguments, and r = 1 for identical rankings without ties (n >= 3).", "quantifier": "every pair of samples", "why_tests_cant": "Trig sums over ranks for every n.", "anchors": ["pycircstat2/correlation.py:_circ_corrcc_np"]}
{"id": "C48", "title": "Circular-linear correlation lies in [0, 1] and is rotation invariant", "statement": "circ_corrcl returns r in [0, 1], unchanged by rotating the angles, by whole turns, and by affine maps x -> a x + b with a != 0.", "quantifier": "every pair of samples with non-degenerate correlations", "why_tests_cant": "Multiple-correlation inequality over all samples.", "anchors": ["pycircstat2/correlation.py:circ_corrcl"]}
{"id": "C49", "title": "CircHAC produces a partition", "statement": "After CircHAC.fit the labels assign each observation one of k' clusters with 1 <= k' and every label 0..k'-1 used, k' = min(n, n_clusters) unless every remaining pair distance is NaN, and the number of recorded merges is the initial number of clusters minus k'; sizes recorded in merges are the true sizes of the merged clusters.", "quantifier": "every data set, every metric, every number of clusters and every initial clustering", "why_tests_cant": "Loop invariant over all merge histories.", "anchors": ["pycircstat2/clustering.py:CircHAC.fit", "pycircstat2/clustering.py:CircHAC._initialize_clusters"]}
{"id": "C50", "title": "CircHAC merges the closest pair", "statement": "Each merge of CircHAC joins a pair of clusters whose centres are closest among all current pairs, for every supported metric.", "quantifier": "every data set, every metric", "why_tests_cant": "Sign of the distance matters only for particular configurations.", "anchors": ["pycircstat2/clustering.py:CircHAC.fit", "pycircstat2/descriptive.py:circ_dist"]}
{"id": "C51", "title": "CircKMeans assignment and termination", "statement": "CircKMeans.fit runs at most max_iter iterations; every label it returns is the index of a centre nearest to the point among the centres used in the last assignment step; labels are in range; inertia_ is the sum of distances to assigned centres and is non-negative; predict returns nearest-centre indices; after convergence re-running one more step changes nothing when no centre moved.", "quantifier": "every data set, initial choice of centres, metric, max_iter", "why_tests_cant": "Holds over all initialisations and iteration histories.", "anchors": ["pycircstat2/clustering.py:CircKMeans.fit", "pycircstat2/clustering.py:CircKMeans.predict"]}
{"id": "C52", "title": "CircKMeans with fewer observations than clusters stays usable", "statement": "After fitting fewer observations than clusters, CircKMeans.predict returns valid labels without raising.", "quantifier": "every data set smaller than n_clusters", "why_tests_cant": "A history property: fit then predict.", "anchors": ["pycircstat2/clustering.py:CircKMeans.fit", "pycircstat2/clustering.py:CircKMeans.predict"]}
{"id": "C53", "title": "EM bookkeeping is sound", "statement": "In MovM, MoKJ and MoCD, responsibilities of each observation are positive and sum to one, mixture weights are non-negative and sum to one after every iteration, at most n_iters iterations run, the nLL history has one entry per executed iteration, and convergence is only declared after more than burnin iterations with two successive nLL values closer than threshold.", "quantifier": "every data set, every component density, every iteration history", "why_tests_cant": "Invariant over all iteration histories.", "anchors": ["pycircstat2/clustering.py:MovM.fit", "pycircstat2/clustering.py:MoKJ.fit", "pycircstat2/clustering.py:MoCD.fit", "pycircstat2/clustering.py:MovM._log_gamma"]}
{"id": "C54", "title": "converged reflects the last fit", "statement": "After each call of fit, the attribute `converged` tells whether that call converged.", "quantifier": "every sequence of fit calls on one estimator", "why_tests_cant": "A history property over repeated fits.", "anchors": ["pycircstat2/clustering.py:MovM.fit", "pycircstat2/clustering.py:MoKJ.fit", "pycircstat2/clustering.py:MoCD.fit"]}
{"id": "C55", "title": "BIC does not depend on the unit of measurement", "statement": "MoCD fitted on data given in degrees reports the same BIC as when fitted on the same data converted to radians.", "quantifier": "every data set and every fitted model", "why_tests_cant": "Unit handling over all models.", "anchors": ["pycircstat2/clustering.py:MoCD.bic", "pycircstat2/clustering.py:MoCD.score_samples"]}
{"id": "C56", "title": "MoKJ regularisation returns admissible parameters", "statement": "MoKJ._regularise_params maps any parameter tuple to one inside the Kato-Jones parameter space, so the component density exists after every M-step.", "quantifier": "every real parameter tuple", "why_tests_cant": "Constraint over a 4-dimensional continuum.", "anchors": ["pycircstat2/clustering.py:MoKJ._regularise_params", "pycircstat2/distributions.py:katojones_gen._argcheck", "pycircstat2/distributions.py:katojones_gen._aux_from_rho_lam", "pycircstat2/distributions.py:katojones_gen._rho_lam_from_aux"]}
{"id": "C57", "title": "Closed-form densities are densities", "statement": "circularuniform, triangular, cardioid and wrapcauchy pdf are non-negative for every admissible parameter and every angle and integrate to 1 over a full turn; katojones pdf is non-negative before clipping exactly under its parameter constraint.", "quantifier": "every admissible parameter vector and every angle", "why_tests_cant": "Pointwise and integral statement over continua.", "anchors": ["pycircstat2/distributions.py:circularuniform_gen", "pycircstat2/distributions.py:triangular_gen", "pycircstat2/distributions.py:cardioid_gen", "pycircstat2/distributions.py:wrapcauchy_gen", "pycircstat2/distributions.py:katojones_gen"]}
{"id": "C58", "title": "Closed-form cdfs are the integrals of the pdfs", "statement": "For circularuniform, triangular, cardioid and wrapcauchy, cdf(0) = 0, cdf(2 pi) = 1, the derivative of cdf is pdf, hence cdf is non-decreasing and cdf(b) - cdf(a) is the probability of [a, b].", "quantifier": "every admissible parameter, every angle in [0, 2 pi]", "why_tests_cant": "Calculus identity over continua.", "anchors": ["pycircstat2/distributions.py:circularuniform_gen._cdf", "pycircstat2/distributions.py:triangular_gen._cdf", "pycircstat2/distributions.py:cardioid_gen._cdf", "pycircstat2/distributions.py:wrapcauchy_gen._cdf"]}
{"id": "C59", "title": "ppf inverts cdf", "statement": "For circularuniform, triangular and wrapcauchy, cdf(ppf(q)) = q for every q in [0, 1] and ppf(cdf(x)) = x for x in [0, 2 pi); for cardioid the safeguarded bisection keeps a bracket containing the root and halves it.", "quantifier": "every admissible parameter and every probability/angle", "why_tests_cant": "Inverse function statement over continua with branch cuts.", "anchors": ["pycircstat2/distributions.py:triangular_gen._ppf", "pycircstat2/distributions.py:cardioid_gen._solve_inverse_cdf", "pycircstat2/distributions.py:wrapcauchy_gen._ppf"]}
{"id": "C60", "title": "wrapnorm pdf is non-negative", "statement": "wrapnorm.pdf(x, mu, rho) >= 0 for every 0 < rho < 1 and every x.", "quantifier": "every rho, mu, x", "why_tests_cant": "Truncation of the series at 29 terms only fails for rho extremely close to 1.", "anchors": ["pycircstat2/distributions.py:wrapnorm_gen._pdf"]}
{"id": "C61", "title": "wrapcauchy cdf is non-decreasing as implemented", "statement": "wrapcauchy.cdf(x1) <= wrapcauchy.cdf(x2) for all 0 <= x1 <= x2 <= 2 pi, including the tolerance tests in the code.", "quantifier": "every mu, rho, and pair x1 <= x2", "why_tests_cant": "The tolerance-induced drop needs rho within 1e-8 of 1.", "anchors": ["pycircstat2/distributions.py:wrapcauchy_gen._cdf"]}
{"id": "C62", "title": "vonmises entropy equals the differential entropy", "statement": "vonmises.entropy(kappa) = log(2 pi I0(kappa)) - kappa I1(kappa)/I0(kappa).", "quantifier": "every kappa >= 0", "why_tests_cant": "Formula identity for all kappa; tests may compare with the same formula.", "anchors": ["pycircstat2/distributions.py:vonmises_gen._entropy"]}
{"id": "C63", "title": "Analytic gradients of negative log-likelihoods are the true gradients", "statement": "The gradients supplied to the optimiser in the fit methods of vonmises, cardioid and wrapcauchy are the partial derivatives of the objective they are paired with.", "quantifier": "every data set, weight vector and interior parameter value", "why_tests_cant": "Derivative identity over all samples.", "anchors": ["pycircstat2/distributions.py:vonmises_gen.fit", "pycircstat2/distributions.py:cardioid_gen.fit", "pycircstat2/distributions.py:wrapcauchy_gen.fit"]}
{"id": "C64", "title": "katojones cdf is the integral of its pdf", "statement": "katojones.cdf(x) equals the integral of katojones.pdf from 0 to x for every admissible parameter vector.", "quantifier": "every admissible (mu, gamma, rho, lam) and x", "why_tests_cant": "Fails only on a lower-dimensional slice (rho ~ 0).", "anchors": ["pycircstat2/distributions.py:katojones_gen._cdf", "pycircstat2/distributions.py:katojones_gen._pdf"]}
{"id": "C65", "title": "katojones parameter conversions are mutually inverse", "statement": "convert_rho_lambda and convert_alpha2_beta2 are inverse on the parameter space (gamma and gamma*rho above the code's tolerance 1e-12, below which the angle is not identifiable, and rho up to 1 - 1e-12), and second-order moments projected by _project_second_order are the nearest feasible moments, always yield admissible parameters, and leave feasible moments unchanged.", "quantifier": "every gamma in (0, 1) and every moment pair", "why_tests_cant": "Continuum of parameters.", "anchors": ["pycircstat2/distributions.py:katojones_gen.convert_alpha2_beta2", "pycircstat2/distributions.py:katojones_gen.convert_rho_lambda", "pycircstat2/distributions.py:katojones_gen._project_second_order"]}
{"id": "C66", "title": "Caching of normalising constants is transparent", "statement": "For every distribution, the value returned by pdf/cdf for given arguments does not depend on which calls were made before.", "quantifier": "every sequence of calls", "why_tests_cant": "A history property over arbitrary interleavings of calls.", "anchors": ["pycircstat2/distributions.py:CircularContinuous._get_cached_normalizer", "pycircstat2/distributions.py:inverse_batschelet_gen"]}
{"id": "C67", "title": "wrapstable is continuous in alpha and sampling matches the density", "statement": "wrapstable's trigonometric moments are continuous in alpha at alpha = 1, and rvs draws from the distribution described by pdf.", "quantifier": "every admissible parameter vector", "why_tests_cant": "A limit statement.", "anchors": ["pycircstat2/distributions.py:wrapstable_gen"]}
{"id": "C68", "title": "Sine-skewed Jones-Pewsey cdf starts at 0 and is non-decreasing", "statement": "jonespewsey_sineskewed.cdf(x) tends to 0 as x decreases to 0 and is non-decreasing on [0, 2 pi] for all admissible parameters.", "quantifier": "every admissible parameter vector, every pair of angles", "why_tests_cant": "Fails only in the small-kappa branch.", "anchors": ["pycircstat2/distributions.py:jonespewsey_sineskewed_gen._cdf"]}
{"id": "C69", "title": "Circular distributions are location-free", "statement": "Passing loc different from 0 or scale different from 1, or floc/fscale/fix_loc/fix_scale keywords, to a distribution raises TypeError and otherwise loc/scale have no effect.", "quantifier": "every argument list", "why_tests_cant": "All argument combinations.", "anchors": ["pycircstat2/distributions.py:CircularContinuous._clean_loc_scale_kwargs", "pycircstat2/distributions.py:CircularContinuous._separate_shape_parameters"]}
{"id": "C70", "title": "Circular.mean for axial data is the axial mean", "statement": "Axial (and Circular with n_modes) report mean, median and confidence limits all on the same (halved) scale.", "quantifier": "every axial sample", "why_tests_cant": "Consistency over all samples.", "anchors": ["pycircstat2/base.py:Axial", "pycircstat2/base.py:Circular"]}
{"id": "C71", "title": "Circular accepts binned data", "statement": "Circular(data, bins=k) or Circular(bin centres, w) for a sample of size 8..24 with a significant mean direction constructs the object: the automatically chosen confidence-interval method works for grouped data.", "quantifier": "every binned sample with 8 <= n < 25 and Rayleigh p < 0.05", "why_tests_cant": "The crash depends on the combination of sample size, grouping and significance; it holds for every such sample because the bin centres are equally spaced.", "anchors": ["pycircstat2/base.py:Circular.__init__", "pycircstat2/descriptive.py:circ_mean_ci", "pycircstat2/descriptive.py:_circ_mean_ci_bootstrap"]}
{"id": "C72", "title": "Default density grid respects full_cycle", "statement": "predict_density() without arguments evaluates the mixture density on one full turn for every full_cycle setting.", "quantifier": "every full_cycle value and fitted model", "why_tests_cant": "Quantifies over all cycle lengths; tests use 360.", "anchors": ["pycircstat2/clustering.py:MovM.predict_density", "pycircstat2/clustering.py:MoKJ.predict_density", "pycircstat2/clustering.py:MoCD.predict_density"]}
{"id": "C73", "title": "Variance of grouped data lies in [0, 1]", "statement": "For every grouped sample with non-negative weights, circ_var (with the automatic bin correction) lies in [0, 1], so angular_std and circ_std of the sample are numbers.", "quantifier": "every grouped sample", "why_tests_cant": "The bin correction multiplies r by a factor above one; whether the result can exceed one depends on all samples.", "anchors": ["pycircstat2/descriptive.py:circ_var", "pycircstat2/descriptive.py:angular_std", "pycircstat2/descriptive.py:circ_std"]}
{"id": "C74", "title": "Grouped median of a single occupied bin", "statement": "If all the weight of a grouped sample is in one bin, circ_median returns the centre of that bin.", "quantifier": "every grouped sample with exactly one occupied bin", "why_tests_cant": "Any number of bins and any position of the occupied bin.", "anchors": ["pycircstat2/descriptive.py:circ_median", "pycircstat2/descriptive.py:_circ_median_grouped"]}
{"id": "C75", "title": "Median does not depend on observation order", "statement": "circ_median of a sample is unchanged when the observations are listed in another order.", "quantifier": "every sample and every permutation of it", "why_tests_cant": "All permutations of all samples; the early exit depends on how close r is to one.", "anchors": ["pycircstat2/descriptive.py:circ_median"]}
{"id": "C76", "title": "Median depends on directions only", "statement": "Adding whole turns to observations leaves circ_median unchanged.", "quantifier": "every sample and every choice of whole turns", "why_tests_cant": "Unbounded turns; sampled tests keep data within one turn.", "anchors": ["pycircstat2/descriptive.py:circ_median", "pycircstat2/descriptive.py:_circ_median_mean_deviation", "pycircstat2/descriptive.py:_circ_median_count"]}
{"id": "C77", "title": "Median turns with the data", "statement": "Rotating every observation by t rotates the circ_median (every method, averaged or not) by t, and keeps it undefined where it was undefined.", "quantifier": "every sample, angle t, method and averaging rule", "why_tests_cant": "All samples and all rotation angles; wrap-around at 2 pi.", "anchors": ["pycircstat2/descriptive.py:circ_median"]}
{"id": "C78", "title": "The median's confidence interval contains the median", "statement": "Whenever circ_median_ci returns bounds (lower, upper) for the median of a sample, both bounds are observations and the median lies on the counter-clockwise arc from lower to upper.", "quantifier": "every sample, its median, and every level", "why_tests_cant": "Containment depends on where the sample sits relative to the branch cut at 0 and on ties; every sample size and position must be covered.", "anchors": ["pycircstat2/descriptive.py:circ_median_ci"]}
{"id": "C79", "title": "Dispersion, skewness and kurtosis are the moments about the mean", "statement": "For a sample with a mean direction m and resultant length r < 1, circ_skewness is the mean of sin 2(a - m) over (1 - r)^1.5, circ_kurtosis is (mean of cos 2(a - m) - r^4) over (1 - r)^2, and circ_dispersion is (1 - resultant length of the doubled angles) over 2 r^2 and is never negative.", "quantifier": "every weighted sample with a mean direction and r < 1", "why_tests_cant": "The code goes through uncentred moments and arctan2; agreement with the centred definition must hold in every quadrant and for every weighting.", "anchors": ["pycircstat2/descriptive.py:circ_dispersion", "pycircstat2/descriptive.py:circ_skewness", "pycircstat2/descriptive.py:circ_kurtosis"]}
{"id": "C80", "title": "Dispersion, skewness and kurtosis respect rotation and reflection", "statement": "Rotating the sample leaves circ_dispersion, circ_skewness and circ_kurtosis unchanged; reflecting it changes the sign of circ_skewness and leaves the other two unchanged.", "quantifier": "every weighted sample with a mean direction and r < 1, every rotation", "why_tests_cant": "Must hold for every rotation, including those that move the mean across the branch cut.", "anchors": ["pycircstat2/descriptive.py:circ_dispersion", "pycircstat2/descriptive.py:circ_skewness", "pycircstat2/descriptive.py:circ_kurtosis"]}
{"id": "C81", "title": "Chi-square statistic measures departure from equal frequencies", "statement": "For every non-empty list of non-negative bin counts with positive total N over k bins, chisquare_test returns chi2 = k * sum(w^2)/N - N >= 0 with k - 1 degrees of freedom; it is zero exactly when all counts are equal, does not depend on the order of the bins, and empty or negative counts raise ValueError.", "quantifier": "every list of non-negative frequencies", "why_tests_cant": "Identity and equality characterisation over all frequency lists.", "anchors": ["pycircstat2/hypothesis.py:chisquare_test"]}
{"id": "C82", "title": "Symmetry test depends only on signed offsets from the median", "statement": "symmetry_test hands Wilcoxon's test the signed offsets of every observation from the median, each in [-pi, pi) and equal modulo 2 pi to alpha - median; so the result is unchanged by rotating the data (with the median given or computed) and by whole turns of any observation.", "quantifier": "every sample, every rotation, every choice of whole turns", "why_tests_cant": "Rotation invariance over a continuum, including through the median search.", "anchors": ["pycircstat2/hypothesis.py:symmetry_test", "pycircstat2/descriptive.py:circ_median"]}
{"id": "C83", "title": "Asymptotic p-values of the Kuiper and Watson tests are probabilities", "statement": "With n_simulation = 1 the p-values that watson_test and kuiper_test compute from their truncated series lie in [0, 1] for every sample.", "quantifier": "every non-empty sample", "why_tests_cant": "A truncated alternating series over a continuum of statistics; whether it can leave [0, 1] is not visible on a few samples.", "anchors": ["pycircstat2/hypothesis.py:kuiper_test", "pycircstat2/hypothesis.py:watson_test"]}
{"id": "C84", "title": "Goodness-of-fit statistics depend on directions only", "statement": "Adding whole turns to single angles does not change the statistics of kuiper_test, watson_test and rao_spacing_test.", "quantifier": "every sample, every number of turns per angle", "why_tests_cant": "Unbounded inputs; tests use angles already in [0, 2 pi).", "anchors": ["pycircstat2/hypothesis.py:kuiper_test", "pycircstat2/hypothesis.py:watson_test", "pycircstat2/hypothesis.py:rao_spacing_test"]}
{"id": "C85", "title": "Angular randomisation statistic is the scaled sum of arc distances", "statement": "For two samples within one turn, angular_randomisation_test's statistic is sqrt(nm/(n+m)) times the sum of all pairwise arc distances; it is unchanged by rotating or reflecting both samples together (wrapped) and by swapping them, and the test rejects exactly: not two samples, an empty sample, a non-positive number of simulations.", "quantifier": "every pair of samples, every common rotation or reflection", "why_tests_cant": "Invariance over a continuum of rotations and all sample sizes.", "anchors": ["pycircstat2/hypothesis.py:angular_randomisation_test", "pycircstat2/descriptive.py:circ_pairdist"]}
{"id": "C86", "title": "Grouped Rao spacing test equals the test on the expanded sample", "statement": "For every weight vector that rao_spacing_test accepts as integer frequencies, the grouped call gives the statistic and (for the same simulated samples) the p-value of the ungrouped call on the sample repeated by those integers.", "quantifier": "every sample and every accepted weight vector", "why_tests_cant": "Weights range over reals within the tolerance; tests use exact integers.", "anchors": ["pycircstat2/hypothesis.py:rao_spacing_test"]}
{"id": "C87", "title": "Likelihood ratio statistic of circ_anova", "statement": "circ_anova(method='LRT') reports the corrected statistic (1 - (sum 1/n_i - 1/N)/(4 kappa)) * 2 kappa (sum R_i - R) with k - 1 degrees of freedom; it is NaN exactly when a group or the pooled sample has no mean direction, raises ZeroDivisionError when the pooled resultant is zero, and is non-negative.", "quantifier": "all lists of at least two non-empty groups, given or estimated kappa", "why_tests_cant": "The sign of the correction factor and the NaN cases depend on sizes and concentration; tests see one data set.", "anchors": ["pycircstat2/hypothesis.py:circ_anova"]}
{"id": "C88", "title": "Equal concentration test statistic is non-negative and detects equality", "statement": "For groups of at least two observations equal_kappa_test picks its regime from the pooled mean resultant length, and its statistic is non-negative and zero iff the groups are equally concentrated; fewer than two groups, groups with fewer than two observations, and (in the large regime) fully concentrated groups raise ValueError.", "quantifier": "all lists of groups", "why_tests_cant": "Three regimes with different transformations; sign and zero set need an inequality over all samples.", "anchors": ["pycircstat2/hypothesis.py:equal_kappa_test"]}
{"id": "C89", "title": "Wheeler-Watson statistic is invariant", "statement": "wheeler_watson_test's W is non-negative, equals the uniform-scores statistic of the ranks, and does not depend on the order of the samples, on the listing order of observations or on a common rotation.", "quantifier": "all lists of at least two samples", "why_tests_cant": "Ranks change discontinuously under rotation; invariance holds through sums of roots of unity for every sample size.", "anchors": ["pycircstat2/hypothesis.py:wheeler_watson_test"]}
{"id": "C90", "title": "Sample arguments of the multi-sample tests are validated and expanded alike", "statement": "In watson_williams_test, watson_u2_test, wheeler_watson_test and wallraff_test a grouped sample acts as the list of observations it tabulates, and a sample that is empty, has weights of another shape, negative, non-integer or all-zero weights raises ValueError.", "quantifier": "all lists of samples with optional weights", "why_tests_cant": "Ranges over all weight vectors, valid or not, and all four tests.", "anchors": ["pycircstat2/hypothesis.py:_coerce_circular_samples", "pycircstat2/hypothesis.py:wallraff_test"]}
{"id": "C91", "title": "Rao homogeneity statistics under rotation", "statement": "rao_homogeneity_test's two statistics, p-values and decisions are the same for samples turned by a common angle.", "quantifier": "all lists of samples and all angles", "why_tests_cant": "Tests use one orientation.", "anchors": ["pycircstat2/hypothesis.py:rao_homogeneity_test"]}
{"id": "C92", "title": "Two-way table: interaction and the additive model", "statement": "In harrison_kanji_test the interaction statistic is non-negative, and without interaction the sums of squares and the degrees of freedom of A, B and the residual add up to those of the total.", "quantifier": "all two-way data sets", "why_tests_cant": "Unbalanced designs and replicated cells behave differently from the one balanced example in the tests.", "anchors": ["pycircstat2/hypothesis.py:harrison_kanji_test"]}
{"id": "C93", "title": "A1inv agrees with circ_kappa and grows with the resultant length", "statement": "On [0, 1) A1inv(r) equals circ_kappa(r) without a sample size, it is 0 at 0, non-negative, and a more concentrated sample never gets a smaller value.", "quantifier": "all resultant lengths in [0, 1)", "why_tests_cant": "Tests check a few points of two separately written three-piece formulas; agreement and order at every r, in particular across the switch points, need a proof.", "anchors": ["pycircstat2/utils.py:A1inv", "pycircstat2/descriptive.py:circ_kappa"]}
{"id": "C94", "title": "Rank correlation depends on circular ranks only", "statement": "circ_corrcc(method='nonparametric') is unchanged by any strictly increasing relabelling of either variable and by rotating either variable (whole turns included); reflecting one variable changes the sign of r.", "quantifier": "every pair of samples of at least three angles; all rotations, reflections and monotone maps", "why_tests_cant": "A relation between two runs over all samples and all ties.", "anchors": ["pycircstat2/correlation.py:circ_corrcc", "pycircstat2/correlation.py:_circ_corrcc_np"]}
{"id": "C95", "title": "circ_corrcc dispatch and packaging", "statement": "The method name is matched case-insensitively; any other name, unequal lengths or fewer than two pairs raise ValueError; test=True returns a CorrelationResult whose r is the number test=False returns for the same data.", "quantifier": "every pair of data arguments, every method name, every flag", "why_tests_cant": "All strings and all samples.", "anchors": ["pycircstat2/correlation.py:circ_corrcc"]}
{"id": "C96", "title": "CircHAC is invariant under rotation and unit", "statement": "Fitting CircHAC (from singletons) to data turned by any angle, shifted by whole turns per observation, or given in another unit, produces the same labels, merges and resultant lengths, and centres turned by the same angle.", "quantifier": "every data set, rotation, unit, metric and number of clusters", "why_tests_cant": "Tests compare a few fits; invariance needs the whole merge history to coincide for every rotation.", "anchors": ["pycircstat2/clustering.py:CircHAC.fit"]}
{"id": "C97", "title": "CircKMeans is invariant under rotation and unit", "statement": "For every metric except geodesic, fitting CircKMeans with the same initial choice to turned data gives the same labels and inertia and turned centres.", "quantifier": "every data set, rotation, unit, initial choice, max_iter, tol", "why_tests_cant": "Needs equality along every iteration for all rotations.", "anchors": ["pycircstat2/clustering.py:CircKMeans.fit"]}
{"id": "C98", "title": "CircKMeans labels_ agree with predict", "statement": "predict applied to the training data returns labels_.", "quantifier": "every data set, initial choice and max_iter", "why_tests_cant": "Fails only when the last move of the centres changes an assignment.", "anchors": ["pycircstat2/clustering.py:CircKMeans.fit", "pycircstat2/clustering.py:CircKMeans.predict"]}
{"id": "C99", "title": "CircHAC silhouette score", "statement": "silhouette_score is 0 for fewer than two observations, is undefined for a single cluster, lies in [-1, 1] otherwise, and equals the mean of the standard silhouettes.", "quantifier": "every fitted model and metric", "why_tests_cant": "The range holds over all label configurations; the deviation from the standard definition shows only on specific cluster sizes.", "anchors": ["pycircstat2/clustering.py:CircHAC.silhouette_score"]}
{"id": "C100", "title": "CircHAC.predict assigns the nearest centre", "statement": "For a fitted CircHAC whose centres are all defined, predict returns for every angle the index of a nearest centre.", "quantifier": "every data set, metric and new angles (within one turn for the geodesic metric)", "why_tests_cant": "Quantifies over all fitted models and inputs.", "anchors": ["pycircstat2/clustering.py:CircHAC.predict"]}
{"id": "C101", "title": "predict and predict_proba are posterior classification", "statement": "For MovM, MoKJ and MoCD, predict_proba returns the posterior component probabilities under the fitted parameters, predict returns a most probable component, and on the training data (same unit) both equal the stored gamma_ and labels_. An unfitted estimator raises ValueError.", "quantifier": "every fitted model and every array of new angles", "why_tests_cant": "Quantifies over all models and inputs.", "anchors": ["pycircstat2/clustering.py:MovM.predict_proba", "pycircstat2/clustering.py:MoKJ.predict_proba", "pycircstat2/clustering.py:MoCD.predict_proba"]}
{"id": "C102", "title": "BIC is 2 nLL + k ln n at the returned parameters", "statement": "MovM.compute_BIC and MoKJ.compute_BIC return twice the negative log likelihood of the data under the returned parameters plus ln n times the number of free parameters (3K-1 and 5K-1).", "quantifier": "every data set and configuration", "why_tests_cant": "An identity over all fits.", "anchors": ["pycircstat2/clustering.py:MovM.compute_BIC", "pycircstat2/clustering.py:MoKJ.compute_BIC"]}
{"id": "C103", "title": "The last nLL entry belongs to the returned parameters", "statement": "After MovM.fit and MoKJ.fit the last entry of nLL is the negative log likelihood of the returned parameters.", "quantifier": "every data set and configuration", "why_tests_cant": "The two agree to many digits once the fit has converged, so tests on converged fits do not see the difference.", "anchors": ["pycircstat2/clustering.py:MovM.fit", "pycircstat2/clustering.py:MoKJ.fit"]}
{"id": "C104", "title": "MovM is equivariant under rotation and independent of the unit", "statement": "Turning all angles, adding whole turns, or giving them in another unit with the matching settings leaves weights, responsibilities, labels, nLL, convergence, BIC, r and kappa of MovM unchanged and turns the means by the same amount, for the same initial labels.", "quantifier": "every data set, rotation, unit and configuration", "why_tests_cant": "A symmetry over a continuum, across all iterations.", "anchors": ["pycircstat2/clustering.py:MovM.fit"]}
{"id": "C105", "title": "MovM with one component is the moment fit", "statement": "With n_clusters = 1 MovM returns weight 1, the circular mean, the mean resultant length and the concentration circ_kappa(r) (at least 1e-3), all labels 0, and converges at iteration burnin + 2; identical angles get a large concentration.", "quantifier": "every data set with a mean direction", "why_tests_cant": "Quantifies over all data sets.", "anchors": ["pycircstat2/clustering.py:MovM.fit", "pycircstat2/descriptive.py:circ_kappa"]}
{"id": "C106", "title": "MoKJ regularisation keeps admissible parameters", "statement": "MoKJ._regularise_params returns an admissible Kato-Jones parameter tuple unchanged.", "quantifier": "every admissible tuple", "why_tests_cant": "The exceptions form a thin layer near the boundary of the parameter space.", "anchors": ["pycircstat2/clustering.py:MoKJ._regularise_params"]}
{"id": "C107", "title": "Distribution parameters are the trigonometric moments", "statement": "For triangular(rho) the first trigonometric moment of pdf is rho; for cardioid(mu, rho) it is rho e^(i mu) and the higher ones vanish; for wrapcauchy(mu, rho) the n-th one is rho^n e^(i n mu). For katojones the p-th one is what trig_moment returns, for every integer p. Hence mean, r, var, std computed from trig_moment agree with the parameters.", "quantifier": "every admissible parameter and every order n", "why_tests_cant": "An identity between integrals for a continuum of parameters and all orders; tests compare finitely many quadratures.", "anchors": ["pycircstat2/distributions.py:CircularContinuous.trig_moment", "pycircstat2/distributions.py:triangular_gen", "pycircstat2/distributions.py:cardioid_gen", "pycircstat2/distributions.py:wrapcauchy_gen", "pycircstat2/distributions.py:katojones_gen.trig_moment"]}
{"id": "C108", "title": "wrapcauchy.rvs draws from wrapcauchy.pdf", "statement": "The Moebius sampler maps the uniform distribution on the circle to the distribution with density wrapcauchy.pdf(mu, rho), and every draw lies in [0, 2 pi).", "quantifier": "every admissible mu, rho and every arc", "why_tests_cant": "Equality of distributions; a finite sample cannot establish it, and the failing parameters are within 1e-5 of the boundary.", "anchors": ["pycircstat2/distributions.py:wrapcauchy_gen._rvs"]}
{"id": "C109", "title": "triangular.fit maximises the likelihood", "statement": "triangular.fit(data, weights) with method mle returns an admissible rho whose weighted log-likelihood is at least that of every rho in [0, 4/pi^2 - 1e-12].", "quantifier": "every data set and every non-negative weight vector", "why_tests_cant": "Global optimality over a continuum for every data set, including the boundary branches.", "anchors": ["pycircstat2/distributions.py:triangular_gen.fit"]}
{"id": "C110", "title": "katojones cdf is non-decreasing", "statement": "katojones.cdf(x1) <= katojones.cdf(x2) for 0 <= x1 <= x2 <= 2 pi, as implemented with the truncated series and the reduction modulo 1.", "quantifier": "every admissible (mu, gamma, rho, lam) and pair x1 <= x2", "why_tests_cant": "The wrap-around to nearly 1 happens only within a tiny interval next to 0.", "anchors": ["pycircstat2/distributions.py:katojones_gen._cdf"]}
{"id": "C111", "title": "katojones ppf inverts the distribution function", "statement": "For 0 <= q <= 1 katojones.ppf(q) lies in [0, 2 pi] and the integral of katojones.pdf from 0 to ppf(q) is q up to the solver's tolerance.", "quantifier": "every admissible parameter vector and every q", "why_tests_cant": "Fails for small q only where the wrapped cdf misleads the bracketing.", "anchors": ["pycircstat2/distributions.py:katojones_gen._ppf"]}
{"id": "C112", "title": "katojones method-of-moments fit", "statement": "The moment fit never raises on non-negative weights with a positive sum; it returns parameters in the documented range whose first trigonometric moment is that of the weighted data, and whose second moment is that of the data whenever the data's second moment is feasible.", "quantifier": "every weighted sample", "why_tests_cant": "Over all samples; the undefined mean direction occurs only for balanced samples.", "anchors": ["pycircstat2/distributions.py:katojones_gen._fit_moments", "pycircstat2/distributions.py:katojones_gen._project_second_order"]}
{"id": "C113", "title": "vonmises density and moments", "statement": "vonmises.pdf is non-negative, 2 pi-periodic and integrates to 1 over a turn; logpdf is its logarithm; its n-th trigonometric moment is I_n(kappa)/I_0(kappa) exp(i n mu) for every order n; var and std are 1 - r and sqrt(-2 ln r) with r the length of the pdf's first moment.", "quantifier": "every admissible (mu, kappa), angle x and order n", "why_tests_cant": "Integral identities over a continuum of parameters and all orders.", "anchors": ["pycircstat2/distributions.py:vonmises_gen._pdf", "pycircstat2/distributions.py:vonmises_gen._logpdf", "pycircstat2/distributions.py:vonmises_gen.var", "pycircstat2/distributions.py:vonmises_gen.std"]}
{"id": "C114", "title": "vonmises cdf is the integral of pdf", "statement": "vonmises.cdf(x) is the integral of vonmises.pdf from 0 to x for x in [0, 2 pi), up to the stopping tolerance of the series.", "quantifier": "every admissible (mu, kappa) and x", "why_tests_cant": "Needs a truncation bound that holds for every kappa and x; the last 6e-5 of the turn are not sampled.", "anchors": ["pycircstat2/distributions.py:vonmises_gen._cdf"]}
{"id": "C115", "title": "vonmises ppf inverts the distribution function", "statement": "For 0 < q < 1 vonmises.ppf(q) lies in [0, 2 pi) and the integral of vonmises.pdf from 0 to ppf(q) is q up to the solver's tolerances.", "quantifier": "every admissible (mu, kappa) and q", "why_tests_cant": "Convergence of a mixed Newton and bisection iteration for all inputs; fails only for q next to 1.", "anchors": ["pycircstat2/distributions.py:vonmises_gen._ppf"]}
{"id": "C116", "title": "vonmises rvs samples the density", "statement": "The accept-reject step of vonmises.rvs proposes angles with a positive density and accepts each with a probability proportional to the ratio of vonmises.pdf to that density, so accepted draws have density pdf; for kappa <= 1e-9 draws are uniform, within 4e-9 of the distribution function.", "quantifier": "every mu, kappa > 0 and stream of uniforms", "why_tests_cant": "Statistical tests see only finitely many draws and cannot show exactness of the law.", "anchors": ["pycircstat2/distributions.py:vonmises_gen._rvs"]}
{"id": "C117", "title": "vonmises moment fit of mu maximises the likelihood", "statement": "The mu returned by vonmises.fit(method='moments') is admissible and maximises the weighted log-likelihood over mu for every kappa, whenever the mean resultant length exceeds 1e-12; otherwise it misses the maximum by at most 2e-12 kappa W.", "quantifier": "every weighted sample accepted by fit, kappa > 0, competing mu", "why_tests_cant": "Optimality against a continuum of competitors and all samples.", "anchors": ["pycircstat2/distributions.py:vonmises_gen.fit"]}
{"id": "C118", "title": "vonmises rvs takes its parameters like the other methods", "statement": "vonmises.rvs accepts mu and kappa positionally (as pdf, cdf, ppf and frozen distributions pass them) or by keyword with the same effect, and rejects inadmissible parameters.", "quantifier": "every mu, kappa and size", "why_tests_cant": "Interaction of positional, keyword and frozen calls; tests use one calling style.", "anchors": ["pycircstat2/distributions.py:vonmises_gen.rvs", "pycircstat2/distributions.py:CircularContinuousFrozen"]}
{"id": "C119", "title": "wrapnorm cdf is monotone with values in [0, 1]", "statement": "For 0 <= a <= b <= 2 pi, 0 <= wrapnorm.cdf(a) <= wrapnorm.cdf(b) <= 1, although the number of turns summed depends on the angle.", "quantifier": "every mu, rho, a, b and every monotone ndtr", "why_tests_cant": "The loop stops at a different turn for different angles; monotonicity is a statement about every pair of angles.", "anchors": ["pycircstat2/distributions.py:wrapnorm_gen._wrapnorm_cdf_pdf", "pycircstat2/distributions.py:wrapnorm_gen._cdf"]}
{"id": "C120", "title": "wrapnorm moments and moment fit", "statement": "The n-th trigonometric moment of wrapnorm.pdf is rho^(n^2) exp(i n mu) for 1 <= n <= 29 and zero beyond; wrapnorm.fit(method='moments') returns admissible parameters whose first moment is the weighted sample mean resultant (up to the documented clipping of rho).", "quantifier": "every mu, rho, n; every weighted sample", "why_tests_cant": "Tests check one sample to a tolerance; the identity must hold for all samples and weights.", "anchors": ["pycircstat2/distributions.py:wrapnorm_gen._pdf", "pycircstat2/distributions.py:wrapnorm_gen.fit"]}
{"id": "C121", "title": "wrapnorm cdf is the integral of pdf", "statement": "wrapnorm.cdf(x), computed from normal probabilities summed over turns, equals the integral of wrapnorm.pdf, computed from a cosine series, up to the tolerance of the loop.", "quantifier": "every mu, rho and every angle x", "why_tests_cant": "Needs Poisson summation: two different infinite series, truncated differently, must agree for all parameters.", "anchors": ["pycircstat2/distributions.py:wrapnorm_gen._cdf", "pycircstat2/distributions.py:wrapnorm_gen._pdf"]}
{"id": "C122", "title": "wrapnorm ppf inverts the integral of pdf", "statement": "wrapnorm.ppf(q) lies in [0, 2 pi) and is within 1e-11 of an angle whose probability under pdf is within 3e-12 of q, whatever the Newton steps do.", "quantifier": "every mu, rho, 0 < q < 1 and every starting guess", "why_tests_cant": "The iteration combines clipped Newton steps, bracketing and a bisection fallback; tests cover few q.", "anchors": ["pycircstat2/distributions.py:wrapnorm_gen._ppf"]}
{"id": "C123", "title": "wrapnorm rvs draws from pdf", "statement": "A wrapnorm draw lies in [0, 2 pi) and, for standard normal input, the probability that it is at most x equals the integral of pdf over [0, x] (up to the truncation of the series in pdf).", "quantifier": "every mu, rho, x", "why_tests_cant": "Sampling tests are statistical and cannot see small or tail differences.", "anchors": ["pycircstat2/distributions.py:wrapnorm_gen._rvs"]}
{"id": "C124", "title": "wrapstable moments are those of the stable law", "statement": "wrapstable.pdf has total mass 1, its first trigonometric moment is exactly the value at 1 of the stable characteristic function (Nolan's S0 form) and every other moment is within 1e-12 of the value at n, although the number of terms is chosen at run time.", "quantifier": "every admissible (delta, alpha, beta, gamma) with alpha away from 1 or beta = 0, every n >= 1; accuracy claim while 20000 terms suffice", "why_tests_cant": "A statement about all orders n and a run-time truncation.", "anchors": ["pycircstat2/distributions.py:wrapstable_gen._pdf", "pycircstat2/distributions.py:wrapstable_gen._get_series_terms"]}
{"id": "C125", "title": "wrapstable pdf is a density", "statement": "wrapstable.pdf is non-negative and integrates to 1 over the circle.", "quantifier": "every admissible parameter vector", "why_tests_cant": "Positivity at every angle and for every parameter; a grid of test points misses negative lobes.", "anchors": ["pycircstat2/distributions.py:wrapstable_gen._pdf"]}
{"id": "C126", "title": "wrapstable cdf is the integral of pdf and monotone", "statement": "wrapstable.cdf(x) is the integral of pdf over [0, x], is non-decreasing and has values in [0, 1].", "quantifier": "every admissible parameter vector and every angle", "why_tests_cant": "A pairwise statement about all angles; the wrap of negative raw values by +1 is only visible for particular parameters.", "anchors": ["pycircstat2/distributions.py:wrapstable_gen._cdf"]}
{"id": "C127", "title": "wrapstable ppf inverts cdf", "statement": "wrapstable.ppf(q) lies inside an interval of length at most 1e-8 on which cdf passes the level q; where pdf is non-negative it is within 2e-8 of an angle with probability exactly q.", "quantifier": "every admissible parameter vector and 1e-12 < q < 1 - 1e-12", "why_tests_cant": "The guarantee is about every path through the guarded Newton steps and the bisection.", "anchors": ["pycircstat2/distributions.py:wrapstable_gen._ppf"]}
{"id": "C128", "title": "wrapstable moment fit matches two moments", "statement": "wrapstable.fit(method='moments') returns admissible parameters within the documented bounds; if none of them is clipped, the fitted density has exactly the sample's weighted first and second trigonometric moments.", "quantifier": "every weighted sample", "why_tests_cant": "An identity over all samples, including the choice of the branch of the second phase.", "anchors": ["pycircstat2/distributions.py:wrapstable_gen.fit"]}
{"id": "C129", "title": "wrapstable rotation and reflection", "statement": "Adding t to delta rotates pdf and every draw by t; replacing (delta, beta) by (2 pi - delta, -beta) reflects pdf, and reflects the draw made from the reflected random input.", "quantifier": "every admissible parameter vector, every t, angle and random input", "why_tests_cant": "An equation between functions for all parameters.", "anchors": ["pycircstat2/distributions.py:wrapstable_gen._pdf", "pycircstat2/distributions.py:_wrapstable_sample_linear"]}
{"id": "C130", "title": "wrapstable contains wrapcauchy and wrapnorm", "statement": "wrapstable with alpha = 1, beta = 0 has the density of wrapcauchy(delta, exp(-gamma)), and with alpha = 2 that of wrapnorm(delta, exp(-gamma^2)), up to the truncation of the series. Its draws are delta + gamma tan V at alpha = 1, delta + 2 gamma sqrt(W) sin V at alpha = 2, and at alpha = 1/2 the elementary skewed form, for the uniform V and exponential W drawn.", "quantifier": "every delta, gamma, beta and angle while 20000 terms suffice", "why_tests_cant": "Two different implementations must agree for all parameters.", "anchors": ["pycircstat2/distributions.py:wrapstable_gen._pdf", "pycircstat2/distributions.py:wrapcauchy_gen._pdf", "pycircstat2/distributions.py:wrapnorm_gen._pdf", "pycircstat2/distributions.py:_wrapstable_sample_linear"]}
{"id": "C131", "title": "jonespewsey.pdf is a unimodal density containing cardioid, wrapped Cauchy and von Mises", "statement": "jonespewsey.pdf is a probability density, depends only on the arc distance to mu and never increases with it; for psi = 1, -1 and |psi| < 1e-6 it equals the densities of cardioid(mu, tanh(kappa)/2), wrapcauchy(mu, tanh(kappa/2)) and vonmises(mu, kappa).", "quantifier": "every admissible parameter vector with |kappa psi| <= 500 (members: 1e-3 <= kappa <= 500), every angle; scipy's iv, lpmv and quadrature correct", "why_tests_cant": "Normalisation and unimodality are statements over all angles and a continuum of parameters, across three code paths for the constant.", "anchors": ["pycircstat2/distributions.py:jonespewsey_gen._pdf", "pycircstat2/distributions.py:_c_jonespewsey", "pycircstat2/distributions.py:_jp_kernel_base"]}
{"id": "C132", "title": "jonespewsey.cdf is the distribution function of jonespewsey.pdf", "statement": "jonespewsey.cdf is non-decreasing and the integral of jonespewsey.pdf from 0.", "quantifier": "every admissible parameter vector and angle", "why_tests_cant": "The cosine series is truncated at 256 terms with coefficients from 4096 points; tests use moderate kappa only.", "anchors": ["pycircstat2/distributions.py:jonespewsey_gen._cdf", "pycircstat2/distributions.py:jonespewsey_gen._jp_get_series"]}
{"id": "C133", "title": "jonespewsey and jonespewsey_asym ppf invert their cdf", "statement": "ppf(q) returns an angle in [0, 2 pi] where the class's own cdf is within 2e-12 of q, or which lies in an interval of length 8e-9 across which cdf passes q (to 2e-12).", "quantifier": "every admissible parameter vector (centre below 2 pi for asym and for |psi| < 1e-6) and every 0 < q < 1", "why_tests_cant": "Covers every path of the safeguarded Newton iteration and the bisection fallback, also where cdf is steep, flat or not monotone.", "anchors": ["pycircstat2/distributions.py:jonespewsey_gen._ppf", "pycircstat2/distributions.py:jonespewsey_asym_gen._ppf"]}
{"id": "C134", "title": "jonespewsey moment fit reports the log-likelihood of its estimates", "statement": "fit(method='moments', return_info=True) returns the circular mean, a kappa in [1e-6, 1e3] and psi = 0, and info['loglik'] is the log-likelihood of the returned estimates.", "quantifier": "every weighted sample", "why_tests_cant": "The reported number comes from a different psi than the returned one; only an inequality over all samples shows which.", "anchors": ["pycircstat2/distributions.py:jonespewsey_gen.fit"]}
{"id": "C135", "title": "jonespewsey_sineskewed.pdf is a density", "statement": "jonespewsey_sineskewed.pdf is non-negative, 2 pi periodic and integrates to 1.", "quantifier": "every admissible parameter vector with |kappa psi| <= 500; scipy's iv, lpmv and quadrature correct", "why_tests_cant": "The constant of the symmetric density is reused; that skewing keeps the mass is an integral identity.", "anchors": ["pycircstat2/distributions.py:jonespewsey_sineskewed_gen._pdf"]}
{"id": "C136", "title": "jonespewsey_sineskewed.ppf inverts its cdf", "statement": "ppf(q) returns an angle in [0, 2 pi] where cdf is within 2e-12 of q, or in an interval of length 8e-9 across which cdf passes q.", "quantifier": "every admissible parameter vector and every 0 < q < 1", "why_tests_cant": "The failing branch needs kappa below 1e-3 with non-zero skewness.", "anchors": ["pycircstat2/distributions.py:jonespewsey_sineskewed_gen._ppf"]}
{"id": "C137", "title": "jonespewsey_asym.pdf is a density and cdf a distribution function", "statement": "jonespewsey_asym.pdf is a probability density; cdf is 0 at 0, 1 at 2 pi, non-decreasing and Lipschitz with constant 4096/(2 pi).", "quantifier": "every admissible parameter vector, every pair of angles; quadrature correct", "why_tests_cant": "Monotonicity for all pairs of angles, across the wrap of the interpolation table.", "anchors": ["pycircstat2/distributions.py:jonespewsey_asym_gen._pdf", "pycircstat2/distributions.py:jonespewsey_asym_gen._cdf"]}
{"id": "C138", "title": "jonespewsey_asym.cdf is close to the integral of pdf", "statement": "The probability cdf gives to an arc is close to the integral of pdf over it.", "quantifier": "every admissible parameter vector and angle", "why_tests_cant": "The error of the 4096-point table depends on the slope of the density; sharply peaked parameters are not tested.", "anchors": ["pycircstat2/distributions.py:jonespewsey_asym_gen._cdf", "pycircstat2/distributions.py:jonespewsey_asym_gen._asym_cdf_table"]}
{"id": "C139", "title": "jonespewsey_sineskewed.rvs samples its density", "statement": "For every admissible lmbd, rvs returns the first draw of the symmetric distribution accepted with probability pdf_skewed/((1 + |lmbd|) pdf_symmetric), which is at most 1.", "quantifier": "every admissible parameter vector and every sequence of base draws and uniforms", "why_tests_cant": "A statement about every random stream.", "anchors": ["pycircstat2/distributions.py:jonespewsey_sineskewed_gen._rvs"]}
{"id": "C140", "title": "Shape parameters by keyword bind to their names", "statement": "trig_moment and the statistics accept shape parameters positionally, by keyword in any order, or mixed. A call succeeds only if every shape got a value, and then each shape has the value given for its name or position; a repeated one must agree to np.allclose. A missing shape is a TypeError, never a shifted binding.", "quantifier": "every list of shape names, positional arguments and keyword dictionary", "why_tests_cant": "All argument combinations.", "anchors": ["pycircstat2/distributions.py:CircularContinuous._separate_shape_parameters", "pycircstat2/distributions.py:CircularContinuous.trig_moment"]}
{"id": "C141", "title": "Statistics of a distribution are those of its density", "statement": "mean, r, var, std, dispersion, skewness and kurtosis equal the textbook integrals of the density about its mean direction; mean is undefined and std infinite when r <= 1e-12; stats() returns the same numbers as the separate methods.", "quantifier": "every density with first two moments", "why_tests_cant": "Quantifies over all densities.", "anchors": ["pycircstat2/distributions.py:CircularContinuous.mean", "pycircstat2/distributions.py:CircularContinuous.skewness", "pycircstat2/distributions.py:CircularContinuous.kurtosis", "pycircstat2/distributions.py:CircularContinuous.stats"]}
{"id": "C142", "title": "Statistics of a distribution under rotation and reflection", "statement": "Rotating a density rotates mean and leaves r, var, std, dispersion, skewness and kurtosis unchanged; reflecting it reflects mean and negates skewness.", "quantifier": "every continuous density with a mean direction, every rotation", "why_tests_cant": "Equations for all densities and angles.", "anchors": ["pycircstat2/distributions.py:CircularContinuous.stats"]}
{"id": "C143", "title": "Distribution and sample statistics agree in definition", "statement": "The formulas of dispersion, skewness and kurtosis of a distribution, applied to the moments of a weighted sample, give circ_dispersion, circ_skewness and circ_kurtosis of that sample, and mean and r those of circ_mean_and_r.", "quantifier": "every weighted sample with 1e-12 < r < 1 - 1e-12", "why_tests_cant": "Two separate implementations for all samples.", "anchors": ["pycircstat2/distributions.py:CircularContinuous.kurtosis", "pycircstat2/descriptive.py:circ_kurtosis", "pycircstat2/descriptive.py:circ_skewness", "pycircstat2/descriptive.py:circ_dispersion"]}
{"id": "C144", "title": "Closed forms of the statistics", "statement": "For cardioid, wrapcauchy, wrapnorm and vonmises, stats() gives mean mu, r = rho (I1/I0 for vonmises), skewness 0 and the closed forms of dispersion and kurtosis; the kurtosis of wrapnorm is 0.", "quantifier": "every parameter with 1e-12 < r < 1 - 1e-12", "why_tests_cant": "All parameters.", "anchors": ["pycircstat2/distributions.py:CircularContinuous.stats"]}
{"id": "C145", "title": "The median of a distribution rotates with it", "statement": "Rotating a distribution by t rotates median() by t.", "quantifier": "every distribution and angle", "why_tests_cant": "Equation for all parameters.", "anchors": ["pycircstat2/distributions.py:CircularContinuous.median"]}
{"id": "C146", "title": "The numeric cdf of a batch is pointwise", "statement": "The generic numeric cdf of an array returns at each position the probability up to that angle, whatever the order, repetitions and other entries of the array, up to 1e-15 times the bound of the density; 0 at or below the support and 1 at or above its end.", "quantifier": "every array and density, quad being exact", "why_tests_cant": "The loop accumulates over the sorted batch; all arrays.", "anchors": ["pycircstat2/distributions.py:CircularContinuous._cdf_integral"]}
{"id": "C147", "title": "The flat-topped von Mises pdf is the density it is named after", "statement": "vonmises_flattopped.pdf is positive, depends on the direction only, is proportional to exp(kappa cos(d + nu sin d)) with d = x - mu, and integrates to one over a turn (1/(2 pi) for kappa <= 1e-9).", "quantifier": "every mu, kappa <= 1000, nu in [-1, 1], every angle", "why_tests_cant": "A law over a continuum of parameters and angles; the total is an integral.", "anchors": ["pycircstat2/distributions.py:vonmises_flattopped_gen._pdf", "pycircstat2/distributions.py:vonmises_flattopped_gen.pdf"]}
{"id": "C148", "title": "Flat-topped with nu = 0 is von Mises", "statement": "vonmises_flattopped.pdf with nu = 0 equals the von Mises density with the same mu and kappa, up to a relative error of 1e-15 (1e-8 for kappa up to 1e-9, where the code takes the uniform density).", "quantifier": "every mu, kappa, angle", "why_tests_cant": "All parameters; needs the value of the Bessel function and the error of the quadrature for every kappa.", "anchors": ["pycircstat2/distributions.py:vonmises_flattopped_gen._pdf"]}
{"id": "C149", "title": "The flat-topped cdf is a distribution function of its pdf", "statement": "vonmises_flattopped.cdf starts at 0, ends at 1, never decreases and is the integral of pdf from 0, up to the error of the table.", "quantifier": "every mu, kappa <= 1000, nu, angle", "why_tests_cant": "Monotonicity over all pairs of angles; integral of the density.", "anchors": ["pycircstat2/distributions.py:vonmises_flattopped_gen._cdf", "pycircstat2/distributions.py:vonmises_flattopped_gen.cdf"]}
{"id": "C150", "title": "The flat-topped ppf inverts its cdf", "statement": "vonmises_flattopped.ppf(q) lies in [0, 2 pi) and is within one cell of the table of an angle x with cdf(x) = q.", "quantifier": "every mu, kappa, nu and 0 < q < 1, any starting guess", "why_tests_cant": "Convergence of an iteration from any starting value.", "anchors": ["pycircstat2/distributions.py:vonmises_flattopped_gen._ppf", "pycircstat2/distributions.py:vonmises_flattopped_gen.ppf"]}
{"id": "C151", "title": "pdf, cdf and ppf accept the same parameters", "statement": "For the flat-topped and the inverse Batschelet distribution pdf returns a number exactly for the parameters for which cdf and ppf do.", "quantifier": "all parameter values, admissible or not", "why_tests_cant": "All parameter values in three methods.", "anchors": ["pycircstat2/distributions.py:vonmises_flattopped_gen.pdf", "pycircstat2/distributions.py:vonmises_flattopped_gen.cdf", "pycircstat2/distributions.py:inverse_batschelet_gen.pdf", "pycircstat2/distributions.py:inverse_batschelet_gen.cdf"]}
{"id": "C152", "title": "The flat-topped sampler is a rejection sampler for its pdf", "statement": "vonmises_flattopped.rvs keeps a von Mises proposal x with uniform u exactly if u g(x) <= c pdf(x), with g the density of the envelope and a constant c such that c pdf <= g (to 1e-5), and returns the kept proposals modulo a turn in their order.", "quantifier": "every mu, kappa, nu and stream of proposals", "why_tests_cant": "Exactness of a rejection sampler is a statement about all proposals, not about samples.", "anchors": ["pycircstat2/distributions.py:vonmises_flattopped_gen._rvs"]}
{"id": "C153", "title": "The flat-topped likelihood is that of its pdf", "statement": "The objective minimised by vonmises_flattopped.fit(method='mle') is the negative weighted log-likelihood of pdf inside the bounds and infinite outside.", "quantifier": "every weighted sample, parameters and bounds", "why_tests_cant": "All samples and parameters.", "anchors": ["pycircstat2/distributions.py:vonmises_flattopped_gen.fit"]}
{"id": "C154", "title": "The warps of the inverse Batschelet distribution are solved", "statement": "_tnu returns the only t in [-pi, pi) with t - nu(1 + cos t) = x - xi modulo a turn, _slmbdainv the only u with u - (1 + lambda)/2 sin u = x.", "quantifier": "every nu, lambda in [-1, 1] (lambda not within 1e-4 of -1 except -1), every angle", "why_tests_cant": "Existence and uniqueness of roots for a continuum of parameters.", "anchors": ["pycircstat2/distributions.py:_tnu", "pycircstat2/distributions.py:_slmbdainv"]}
{"id": "C155", "title": "The inverse Batschelet pdf is the density it is named after", "statement": "On an object without history inverse_batschelet.pdf is positive, depends on the direction only, equals c exp(kappa cos(u - (1 - lambda)/2 sin u)) at xi + t - nu(1 + cos t), t = u - (1 + lambda)/2 sin u, and integrates to one.", "quantifier": "every xi, kappa, nu, lambda, angle", "why_tests_cant": "Change of variables in an integral over a continuum of parameters.", "anchors": ["pycircstat2/distributions.py:inverse_batschelet_gen._pdf"]}
{"id": "C156", "title": "Special cases of the inverse Batschelet distribution", "statement": "inverse_batschelet.pdf with nu = lambda = 0 is the von Mises density; with nu = 0, lambda = -1 it is proportional to the flat-topped shape with nu = -1.", "quantifier": "every xi, kappa, angle", "why_tests_cant": "All parameters; an identity of functions.", "anchors": ["pycircstat2/distributions.py:inverse_batschelet_gen._pdf"]}
{"id": "C157", "title": "Axial does not see the sense of an axis", "statement": "Reversing any readings of an axial sample (adding any whole number of half cycles to each) leaves every statistic of the Axial object, or the exception, unchanged.", "quantifier": "every axial sample, every option, every choice of reversals, with full_cycle not given or equal to the unit's cycle or an unnamed unit", "why_tests_cant": "All samples and all choices of reversals.", "anchors": ["pycircstat2/base.py:Axial.__init__"]}
{"id": "C158", "title": "Axial uses full_cycle", "statement": "With full_cycle = c given, reversing readings (adding multiples of c/2) leaves the statistics of Axial unchanged.", "quantifier": "every axial sample, every full_cycle and unit", "why_tests_cant": "Needs a cycle other than the unit's; the doubling is reduced by the unit's cycle, which only shows for some data.", "anchors": ["pycircstat2/base.py:Axial.__init__"]}
{"id": "C159", "title": "Binning counts every observation", "statement": "Circular(data, bins=k) has n equal to the number of observations, and its mean resultant length differs from that of the raw data by at most pi/k.", "quantifier": "every sample, written anywhere on the real line, every number of bins", "why_tests_cant": "Observations outside [0, one cycle] vanish without notice.", "anchors": ["pycircstat2/base.py:Circular.__init__"]}
{"id": "C160", "title": "Histogram behind a binned object", "statement": "With bins=k the object holds k >= 2 equal bins over one turn: alpha are the bin centres, w the counts of the half-open bins (last one closed), bin_size = 2 pi/k, and n the number of angles in [0, 2 pi].", "quantifier": "every sample and k", "why_tests_cant": "All samples and k; ties on bin edges.", "anchors": ["pycircstat2/base.py:Circular.__init__"]}
{"id": "C161", "title": "Units only rescale", "statement": "Describing the same directions in another unit or full_cycle gives an object with the same statistics, or the same exception; an unknown unit without full_cycle raises ValueError.", "quantifier": "every sample, every pair of cycles, every option", "why_tests_cant": "All samples, options and pairs of units; includes equality of exceptions.", "anchors": ["pycircstat2/base.py:Circular.__init__", "pycircstat2/utils.py:data2rad"]}
{"id": "C162", "title": "rotate turns the mean and nothing else", "statement": "Circular(..., rotate=t) reports the mean direction turned by t within [0, 2 pi) and the same n, r, R, p-value, kappa and interval method as without rotate; the standard deviations too if no weights are given.", "quantifier": "every sample and every t, whenever both objects can be built", "why_tests_cant": "All samples and angles.", "anchors": ["pycircstat2/base.py:Circular.__init__", "pycircstat2/utils.py:rotate_data"]}
{"id": "C163", "title": "Weighted objects agree with the Rayleigh test", "statement": "R of the object is the length of the weighted resultant, n its total weight, and the reported p-value that of rayleigh_test on the same weighted sample.", "quantifier": "every non-negative weighting", "why_tests_cant": "Fractional weights are cut to an integer total.", "anchors": ["pycircstat2/base.py:Circular.__init__"]}
{"id": "C164", "title": "Order of the bins does not matter", "statement": "Listing the same bin centres with their weights in another order gives the same statistics.", "quantifier": "every grouped sample and permutation", "why_tests_cant": "All permutations; the failure needs a list that is not increasing.", "anchors": ["pycircstat2/base.py:Circular.__init__"]}
{"id": "C165", "title": "kwargs_mean_ci is honoured and not consumed", "statement": "The level given in kwargs_mean_ci is the one used, and building two objects with the same dictionary uses the same method twice.", "quantifier": "every sample and dictionary", "why_tests_cant": "Needs two constructions with a shared dictionary; the level attribute is overwritten silently.", "anchors": ["pycircstat2/base.py:Circular.__init__"]}
{"id": "C166", "title": "Several medians are representable", "statement": "With return_average=False in kwargs_median, a sample with several medians gives an object that holds them.", "quantifier": "every ungrouped sample with more than one median", "why_tests_cant": "The truth test of an array depends on how many medians tie.", "anchors": ["pycircstat2/base.py:Circular.__init__", "pycircstat2/descriptive.py:circ_median_ci"]}
{"id": "C167", "title": "The median interval never prevents the object", "statement": "Circular(data) does not raise because the interval of the median cannot be formed.", "quantifier": "every sample", "why_tests_cant": "Depends on the position of the median in the sorted sample.", "anchors": ["pycircstat2/base.py:Circular.__init__", "pycircstat2/descriptive.py:circ_median_ci"]}
{"id": "C168", "title": "Large significant samples get an interval around the mean", "statement": "For n >= 25 and p < 0.05 with default options the object has a dispersion interval at level 0.95 and the mean lies on the counter-clockwise arc from its lower to its upper limit; the interval is computed without a failing arcsine or a negative root.", "quantifier": "every sample, weighted or not, of at least 25 observations", "why_tests_cant": "The argument of the arcsine must stay below one for every sample the Rayleigh test passes.", "anchors": ["pycircstat2/base.py:Circular.__init__", "pycircstat2/descriptive.py:_circ_mean_ci_dispersion"]}
{"id": "C169", "title": "The bootstrap interval turns with the data", "statement": "Turning the data and the resampled rows by t turns the interval of circ_mean_ci(method='bootstrap') by t.", "quantifier": "every sample, every set of resamples, every t", "why_tests_cant": "Random resampling hides the dependence on the zero direction.", "anchors": ["pycircstat2/descriptive.py:_circ_mean_ci_bootstrap", "pycircstat2/descriptive.py:_circ_mean_resample"]}
{"id": "C170", "title": "The bootstrap interval is oriented through its own directions", "statement": "If the limits of the bootstrap interval differ, the mean of the bootstrap directions lies on the counter-clockwise arc from lower to upper.", "quantifier": "every sample, every set of resamples, every level", "why_tests_cant": "All samples and random draws.", "anchors": ["pycircstat2/descriptive.py:_circ_mean_ci_bootstrap"]}
{"id": "C171", "title": "The bootstrap scales by the square root of the covariance", "statement": "The matrix v0 in the bootstrap of the mean is the symmetric square root of the covariance matrix of (cos, sin).", "quantifier": "every sample", "why_tests_cant": "An algebraic identity; right for samples whose covariance is diagonal.", "anchors": ["pycircstat2/descriptive.py:_circ_mean_ci_bootstrap"]}
{"id": "C172", "title": "Median of grouped data", "statement": "The median of counts in equal bins splits the total weight in half (observations spread evenly within a bin), exists for every table of counts, and lies on the axis of a mirror-symmetric table.", "quantifier": "every table of counts in equal bins", "why_tests_cant": "All tables; even and odd numbers of bins take different branches.", "anchors": ["pycircstat2/descriptive.py:_circ_median_grouped", "pycircstat2/descriptive.py:circ_median"]}
{"id": "C173", "title": "Fitted directions and residuals of the circular-circular regression", "statement": "At each observation the fitted value of CCRegression is the direction, in [0, 2 pi), of the two fitted trigonometric polynomials built from the reported coefficients; the residual is in (-pi, pi]; fitted value and residual add up to the observed direction; every predictor contributes every harmonic up to the order once.", "quantifier": "every sample, number of predictors, order and level", "why_tests_cant": "All samples and designs; a test compares a few numbers for one data set.", "anchors": ["pycircstat2/regression.py:CCRegression._fit"]}
{"id": "C174", "title": "CCRegression is least squares and rho measures its distance", "statement": "The reported coefficients minimise the residual sums of squares of cos and sin among all trigonometric polynomials of the order; rho is in [0, 1] and 1 - rho^2 is the mean squared distance between observed and fitted points.", "quantifier": "every sample, number of predictors and order, also when the columns are collinear", "why_tests_cant": "A minimum over all coefficient vectors.", "anchors": ["pycircstat2/regression.py:CCRegression._fit"]}
{"id": "C175", "title": "CCRegression does not depend on the reference directions", "statement": "Turning or reflecting the responses and the predictors (each by its own angle), writing angles in another turn, leaves rho unchanged and moves fitted values and residuals accordingly wherever the fitted point is not the origin; reordering the observations leaves rho unchanged.", "quantifier": "every sample, every angle, every permutation", "why_tests_cant": "A relation between two runs for all angles.", "anchors": ["pycircstat2/regression.py:CCRegression._fit"]}
{"id": "C176", "title": "A higher order never fits worse", "statement": "On the same data rho does not decrease when the order is increased.", "quantifier": "every sample and every pair of orders", "why_tests_cant": "A relation between two fits for all samples.", "anchors": ["pycircstat2/regression.py:CCRegression._fit"]}
{"id": "C177", "title": "The p-values of CCRegression test the next harmonic", "statement": "If the columns of the next order are independent, the statistics behind the p-values are the drops of the residual sums of squares to the next order relative to the residual sums of squares of this order, scaled by the residual degrees of freedom; the message says not significant exactly when both p-values exceed the level.", "quantifier": "every sample, number of predictors, order and level", "why_tests_cant": "A matrix identity between two fits of different orders.", "anchors": ["pycircstat2/regression.py:CCRegression._fit"]}
{"id": "C178", "title": "The verdict on the next harmonic does not depend on the reference direction", "statement": "Turning all responses by the same angle does not change the message about the next harmonic.", "quantifier": "every sample and every angle", "why_tests_cant": "A relation between two runs; true for most samples.", "anchors": ["pycircstat2/regression.py:CCRegression._fit"]}
{"id": "C179", "title": "The statistic counts the fitted coefficients", "statement": "The statistic of the test of the next harmonic is scaled by the number of observations less the number of fitted coefficients.", "quantifier": "every sample, number of predictors and order", "why_tests_cant": "Right for one predictor, wrong for several.", "anchors": ["pycircstat2/regression.py:CCRegression._fit"]}
{"id": "C180", "title": "CCRegression accepts exactly the usable inputs", "statement": "Arrays are fitted exactly when all entries are finite, shapes match, the order is positive and the level is inside (0, 1), otherwise ValueError is raised; a vector is a single predictor; a formula gives the fit of the columns it names, in the order named.", "quantifier": "all arrays, tables and formulas of plain names", "why_tests_cant": "All inputs, including non-finite entries and every table.", "anchors": ["pycircstat2/regression.py:CCRegression.__init__", "pycircstat2/regression.py:CCRegression._parse_formula", "pycircstat2/regression.py:CCRegression._validate_input"]}
{"id": "C181", "title": "CLRegression reads its inputs alike", "statement": "A formula with a table gives the fit of the columns it names with their names; a vector is a single predictor; an empty response, non-finite entries, mismatched shapes, an unknown model type or starting values of another length raise ValueError.", "quantifier": "all arrays, tables, formulas of plain names and starting values", "why_tests_cant": "All inputs, including non-finite entries and every table.", "anchors": ["pycircstat2/regression.py:CLRegression.__init__", "pycircstat2/regression.py:CLRegression._prepare_design", "pycircstat2/regression.py:CLRegression._parse_formula"]}
{"id": "C182", "title": "The reported mu and kappa belong to the reported coefficients", "statement": "The reported mu maximises the likelihood at the reported coefficients and kappa, and the reported kappa is the one of the reported coefficients.", "quantifier": "every sample, model type, start, tolerance and number of iterations", "why_tests_cant": "A maximum over all directions at the end of an iteration of any length; tests that let the iteration converge do not see it fail.", "anchors": ["pycircstat2/regression.py:CLRegression._fit"]}
{"id": "C183", "title": "log_likelihood is the log-likelihood", "statement": "The reported log_likelihood is the von Mises log-likelihood of the sample at the reported fit.", "quantifier": "every sample and model type", "why_tests_cant": "An identity of reals; a missing constant does not change the fit.", "anchors": ["pycircstat2/regression.py:CLRegression._fit"]}
{"id": "C184", "title": "The mean model stops at the stationary points of the likelihood", "statement": "In the mean model one iteration leaves beta unchanged exactly when the derivative of the log-likelihood in beta, at the mu and kappa of the iteration, equals that of the ridge penalty 1e-8 |beta|^2 / 2.", "quantifier": "every sample, number of predictors and beta", "why_tests_cant": "An equivalence about derivatives in every direction.", "anchors": ["pycircstat2/regression.py:CLRegression._fit"]}
{"id": "C185", "title": "The concentration model stops at the stationary points of the likelihood", "statement": "In the concentration model one iteration leaves alpha and gamma unchanged exactly when all derivatives of the log-likelihood in alpha and gamma vanish.", "quantifier": "every sample, number of predictors, alpha and gamma", "why_tests_cant": "An equivalence about derivatives in every direction.", "anchors": ["pycircstat2/regression.py:CLRegression._fit"]}
{"id": "C186", "title": "The mixed model stops at the stationary points of the likelihood", "statement": "In the mixed model one iteration leaves beta, alpha and gamma unchanged exactly when all derivatives of the log-likelihood in them vanish (up to the ridge).", "quantifier": "every sample, number of predictors and coefficients", "why_tests_cant": "An equivalence about derivatives; a wrong update still converges and looks plausible.", "anchors": ["pycircstat2/regression.py:CLRegression._fit"]}
{"id": "C187", "title": "The fit does not depend on the linear algebra and has standard errors", "statement": "Any correct solver (and any pseudo-inverse) gives the same fit; there is one coefficient for each predictor; unless kappa is 0 every fitted coefficient, mu and kappa has a positive finite standard error.", "quantifier": "every sample, model type, start and number of iterations", "why_tests_cant": "Quantifies over solvers, and over singular designs.", "anchors": ["pycircstat2/regression.py:_safe_solve", "pycircstat2/regression.py:_safe_inverse", "pycircstat2/regression.py:CLRegression._compute_standard_errors"]}
{"id": "C188", "title": "The fit turns with the response and ignores the order of the observations", "statement": "Turning all directions turns mu and leaves coefficients, kappa and log-likelihood; reordering the observations changes nothing but the order of the concentrations.", "quantifier": "every sample, angle, order, model type and number of iterations", "why_tests_cant": "A relation between two runs, for all samples and angles.", "anchors": ["pycircstat2/regression.py:CLRegression._fit"]}
{"id": "C189", "title": "Units of a predictor", "statement": "Multiplying a predictor by c > 0 divides its coefficient by c.", "quantifier": "every sample and every c", "why_tests_cant": "A relation between two runs; true to many digits for predictors of ordinary size.", "anchors": ["pycircstat2/regression.py:CLRegression._fit"]}
{"id": "C190", "title": "AIC and BIC count the fitted parameters", "statement": "AIC is 2 k - 2 log L and BIC is k ln n - 2 log L with k the number of fitted parameters.", "quantifier": "every sample and model type", "why_tests_cant": "Any one value looks plausible; the error shows when models are compared.", "anchors": ["pycircstat2/regression.py:CLRegression.AIC", "pycircstat2/regression.py:CLRegression.BIC"]}
{"id": "C191", "title": "Predictions are the locations of the model", "statement": "predict gives at every row the location the fitted model has there; a vector is a single predictor; other shapes and non-finite entries raise ValueError.", "quantifier": "every fit and every new input", "why_tests_cant": "All fits, including the concentration model with starting values that it ignores.", "anchors": ["pycircstat2/regression.py:CLRegression.predict"]}
{"id": "C192", "title": "A fit of numbers, or ValueError", "statement": "With usable inputs the constructor returns finite estimates or raises ValueError.", "quantifier": "every sample, model type, start, tolerance and number of iterations", "why_tests_cant": "All inputs; fails on degenerate responses only.", "anchors": ["pycircstat2/regression.py:CLRegression._fit", "pycircstat2/regression.py:CLRegression._A1inv"]}
{"id": "C193", "title": "The standard errors are those of the Fisher information", "statement": "The standard errors of CLRegression are the square roots of the diagonal of the inverse of the Fisher information of the fitted model, in which location and concentration parameters are orthogonal.", "quantifier": "every sample, model type and converged run", "why_tests_cant": "The information is an expectation over all responses of squared derivatives; a test compares with stored numbers.", "anchors": ["pycircstat2/regression.py:CLRegression._compute_standard_errors"]}
{"id": "C194", "title": "jonespewsey.rvs draws from the Jones-Pewsey density", "statement": "jonespewsey.rvs returns, in order, the first `size` von Mises proposals x that pass u <= f(x) / (m g(x)), where f is the public density, g the proposal density and m g(x) >= f(x) for every angle x; for tiny kappa and tiny psi it returns uniform and von Mises draws and the density is that of those laws.", "quantifier": "every mu, kappa > 0, psi with |kappa psi| <= 500, every stream of random numbers and every size", "why_tests_cant": "The constant m comes from a grid of 2048 angles; that the envelope is above the density at every angle and for every parameter is not visible in samples.", "anchors": ["pycircstat2/distributions.py:jonespewsey_gen._rvs", "pycircstat2/distributions.py:jonespewsey_gen._jp_sampler_envelope", "pycircstat2/distributions.py:_jp_effective_kappa"]}
{"id": "C195", "title": "jonespewsey_asym.rvs draws from its density", "statement": "jonespewsey_asym.rvs returns, in order, the first `size` von Mises proposals x that pass u <= f(x) / (m g(x)), where m g(x) >= f(x) for every angle x; nu outside [0, 1) raises ValueError.", "quantifier": "every valid xi, kappa, psi, nu, every stream of random numbers and every size", "why_tests_cant": "The envelope is checked at 2048 angles only; a peak between two of them is invisible to any test that uses moderate parameters.", "anchors": ["pycircstat2/distributions.py:jonespewsey_asym_gen._rvs", "pycircstat2/distributions.py:jonespewsey_asym_gen._asym_sampler_envelope"]}
{"id": "C196", "title": "cartwright is a density with mean resultant length 1/(1+zeta)", "statement": "cartwright.pdf(x, mu, zeta) is a probability density on the circle and its first trigonometric moment is (cos mu, sin mu) / (1 + zeta).", "quantifier": "every 0 <= mu <= 2 pi and every zeta > 0", "why_tests_cant": "The normalising constant is a ratio of gamma functions of 1/zeta; a test evaluates a few zeta.", "anchors": ["pycircstat2/distributions.py:cartwright_gen._pdf", "pycircstat2/distributions.py:cartwright_gen.pdf"]}
{"id": "C197", "title": "cartwright.cdf is the distribution function of cartwright.pdf", "statement": "cartwright.cdf and cartwright.pdf describe one distribution: the cdf is 0 at 0, 1 at 2 pi, and its increments are the integrals of the pdf.", "quantifier": "every 0 <= mu <= 2 pi, every zeta > 0 and every angle", "why_tests_cant": "The error sits in the last 6e-5 of the turn, where no test looks; elsewhere the claim is about every angle and parameter.", "anchors": ["pycircstat2/distributions.py:cartwright_gen._cdf", "pycircstat2/distributions.py:cartwright_gen._cartwright_cumulative"]}
{"id": "C198", "title": "cartwright.ppf inverts the distribution function", "statement": "cartwright.ppf(q, mu, zeta) is an angle x in [0, 2 pi) with integral of the pdf from 0 to x equal to q.", "quantifier": "every 0 <= mu <= 2 pi, every zeta > 0 and every 1e-12 < q < 1 - 1e-12", "why_tests_cant": "The branch taken depends on where 0 falls relative to mu and on q; finitely many quantiles do not cover the seam.", "anchors": ["pycircstat2/distributions.py:cartwright_gen._ppf", "pycircstat2/distributions.py:cartwright_gen.ppf"]}
{"id": "C199", "title": "cartwright.rvs draws from the density", "statement": "cartwright.rvs turns a Beta(1/2, 1/zeta + 1/2) draw t and a fair coin into an angle in [0, 2 pi) at signed distance d from mu, with |d| <= p exactly when t <= sin(p/2)^2, and the density gives each side of mu up to p half the Beta probability of that event; zeta <= 0 raises ValueError.", "quantifier": "every mu, every zeta > 0, every draw t in [0, 1] and every u", "why_tests_cant": "A statement about the law of the sample, for every parameter; tests compare a few seeded samples.", "anchors": ["pycircstat2/distributions.py:cartwright_gen._rvs", "pycircstat2/distributions.py:cartwright_gen.rvs"]}
{"id": "C200", "title": "The likelihood maximised by cartwright.fit", "statement": "The objective of cartwright.fit is minus the weighted log-likelihood of the data under cartwright.pdf, and the gradient given to the optimiser is its gradient.", "quantifier": "every sample, every mu and every zeta > 0", "why_tests_cant": "A wrong term of the gradient still lets the optimiser converge on the tested data; an observation opposite to mu is never tested.", "anchors": ["pycircstat2/distributions.py:cartwright_gen.fit"]}
{"id": "C201", "title": "What cartwright.fit returns", "statement": "The moment fit returns the law whose first trigonometric moment is the sample's (zeta at the nearest bound when the sample's resultant length is outside [1/(1+1e6), 1/(1+1e-6)]); the maximum-likelihood fit stays within the bounds, reports the log-likelihood at its estimate, is no worse than the moment fit it starts from, and raises RuntimeError when the optimiser fails; empty data, negative weights and zero total weight raise ValueError.", "quantifier": "every sample and every optimiser that respects its contract", "why_tests_cant": "Moment matching is an identity over all samples; clipping hides in the extremes.", "anchors": ["pycircstat2/distributions.py:cartwright_gen.fit"]}
{"id": "C202", "title": "cardioid.fit by moments", "statement": "cardioid.fit(method='moments') returns parameters in their domain: the cardioid whose first trigonometric moment is the sample's when the resultant length is in (1e-12, 1/2], and rho = 1/2 in the sample's mean direction above that; info holds the log-likelihood of the returned density (-inf when an observation has density zero) and Kish's effective sample size; with usable data the fit never fails, unknown methods and empty data, negative weights or zero total weight raise ValueError.", "quantifier": "every weighted sample, every spelling of the method", "why_tests_cant": "Moment matching is an identity over all samples; tests fit one simulated sample with a tolerance.", "anchors": ["pycircstat2/distributions.py:cardioid_gen.fit"]}
{"id": "C203", "title": "cardioid.fit by maximum likelihood finds the global maximum", "statement": "Any feasible point with vanishing gradient (or pushed against rho = 1/2) is the global maximum of the cardioid likelihood, and the log-likelihood returned by cardioid.fit(method='mle') is within grad_norm * (1 + 1/(2 rho)) of the supremum over all parameters, grad_norm being the number reported in info; it is never below the moment fit; the shortcut for samples without direction loses at most 1e-12 of the total weight.", "quantifier": "every weighted sample and every optimiser that stays in its box and does not worsen its start", "why_tests_cant": "A two-parameter likelihood could have local maxima that no tested sample exhibits; tests compare to the parameters simulated from.", "anchors": ["pycircstat2/distributions.py:cardioid_gen.fit"]}
{"id": "C204", "title": "wrapcauchy.fit by moments", "statement": "wrapcauchy.fit(method='moments' or 'analytical') returns the wrapped Cauchy law whose first trigonometric moment is the sample's (rho at most 1 - 1e-12), info holds the log-likelihood of the returned density and Kish's effective sample size, and usable data never make it fail.", "quantifier": "every weighted sample", "why_tests_cant": "Identities over all samples; samples concentrated on one angle are never tested.", "anchors": ["pycircstat2/distributions.py:wrapcauchy_gen.fit"]}
{"id": "C205", "title": "wrapcauchy.fit by maximum likelihood finds the global maximum", "statement": "Every stationary point of the wrapped Cauchy likelihood with 0 < rho < 1 is its global maximum, so wrapcauchy.fit(method='mle') with reported gradient norm zero has found the maximum over all parameters; its estimate lies in the domain, its loglik is that of the returned density and is not below the moment fit it starts from.", "quantifier": "every weighted sample without an observation within 1e-15 of the fitted pole, every optimiser that stays in its box and does not worsen its start", "why_tests_cant": "Cauchy likelihoods are known for multiple local maxima; that the circular one has none is a theorem, not an observation on samples.", "anchors": ["pycircstat2/distributions.py:wrapcauchy_gen.fit"]}
{"id": "C206", "title": "The diagnostics of triangular.fit", "statement": "triangular.fit returns a valid rho; loglik is the log-likelihood of the returned density, se is one over the square root of the observed information (minus its second derivative), n_effective is Kish's, and the moment fit has the sample's mean cosine whenever some triangular law has it; negative weights and zero total weight raise ValueError.", "quantifier": "every weighted sample and every root finder that returns a root in its bracket", "why_tests_cant": "The standard error is a statement about a second derivative for all samples; an observation at the zero of the density is never tested.", "anchors": ["pycircstat2/distributions.py:triangular_gen.fit"]}
{"id": "C207", "title": "circularuniform, triangular and cardioid draw from their densities", "statement": "Each draw of circularuniform.rvs, triangular.rvs and cardioid.rvs is an angle of [0, 2 pi] at which the integral of the density from 0 equals the uniform variate it was made from: exactly for circularuniform, within 1e-12 for triangular (exactly for rho > 1e-12), and within 2^-32 for cardioid (1e-15 on its uniform branch).", "quantifier": "every valid parameter and every uniform variate", "why_tests_cant": "A statement about the law of the sample for every parameter; tests check a seeded sample's mean.", "anchors": ["pycircstat2/distributions.py:circularuniform_gen._rvs", "pycircstat2/distributions.py:triangular_gen.rvs", "pycircstat2/distributions.py:cardioid_gen.rvs"]}
{"id": "C208", "title": "Fits and samplers refuse what they do not support", "statement": "A parameter outside the documented range or a method name that is not documented raises ValueError instead of returning numbers, for cardioid and triangular.", "quantifier": "every parameter and every method name", "why_tests_cant": "Tests try one bad value per function, if any; a typo in a method name is never tried.", "anchors": ["pycircstat2/distributions.py:triangular_gen.fit", "pycircstat2/distributions.py:triangular_gen.rvs", "pycircstat2/distributions.py:cardioid_gen.rvs"]}
{"id": "C209", "title": "The plot configuration is the user's settings over the defaults", "statement": "In the configuration circ_plot works with, every value the user gives - at any depth of the dictionary - stands at the path where they gave it, every default they do not mention is kept, False switches a feature off and True switches it on; in particular {\"spine\": True} shows the spine.", "quantifier": "every configuration dictionary, every path in it and every plot", "why_tests_cant": "The merge is recursive with a different rule at every other level; tests try a few dictionaries and look at no option whose default is False.", "anchors": ["pycircstat2/visualization.py:_merge_dicts", "pycircstat2/visualization.py:DEFAULT_CIRC_PLOT_CONFIG", "pycircstat2/visualization.py:circ_plot"]}
{"id": "C210", "title": "Every Circular object can be plotted with the default configuration", "statement": "circ_plot(circ) with no configuration draws every object the constructor returns, grouped or not, with or without a median or fitted mixture.", "quantifier": "every object the constructor returns", "why_tests_cant": "Whether an attribute is missing depends on the data (an undefined median) and on which constructor options were given; tests plot one or two datasets.", "anchors": ["pycircstat2/visualization.py:circ_plot", "pycircstat2/base.py:Circular.__init__"]}
{"id": "C211", "title": "The rose diagram shows the data with areas proportional to counts", "statement": "With k bins (12 by default) circ_plot draws k bars of width 2 pi / k centred on the k equal sectors of the circle, the square of each height is the sector's number of observations divided by the largest number, and every observation is counted in the sector of its direction.", "quantifier": "every ungrouped object, every number of bins", "why_tests_cant": "A statement about every observation and every number of bins; tests do not look at the drawn bars.", "anchors": ["pycircstat2/visualization.py:circ_plot"]}
{"id": "C212", "title": "The plot has one marker for each observation", "statement": "For ungrouped data circ_plot draws exactly as many markers as there are observations, no two at the same place: the observations whose angles agree to three decimals are stacked at that angle (within 0.0005 of each of them), 0.05 apart, starting 0.05 beyond r_start outwards, or inwards with outward=False.", "quantifier": "every ungrouped object and every configuration", "why_tests_cant": "A bijection between observations and markers for every sample with ties; tests do not look at the markers.", "anchors": ["pycircstat2/visualization.py:circ_plot"]}
{"id": "C213", "title": "The plotted arcs are the confidence intervals", "statement": "The arcs circ_plot draws for the confidence intervals of the mean and the median start at the lower bound, run counterclockwise and end at the upper bound, without covering any direction outside the interval.", "quantifier": "every object the constructor returns", "why_tests_cant": "Intervals across 0 and degenerate intervals are rare in test data, and tests do not look at the arcs.", "anchors": ["pycircstat2/visualization.py:circ_plot", "pycircstat2/descriptive.py:circ_median_ci", "pycircstat2/descriptive.py:circ_mean_ci"]}
{"id": "C214", "title": "Kernel density estimate", "statement": "nonparametric_density_estimation(alpha, h, radius) returns, at 100 angles from 0 to 2 pi, the quartic kernel density estimate of the sample on the equal-area scale: (radius + f)^2 = radius^2 (1 + pi fhat(x)), where fhat is the mean over the observations of the kernel of bandwidth h at the angle between x and the observation, whatever whole turns the observations are given with. fhat is a probability density, in particular with the bandwidth compute_smooth_params chooses, so that the curve encloses half the area of its circle.", "quantifier": "every non-empty sample, every bandwidth and radius", "why_tests_cant": "An identity at every angle for every sample, and an integral.", "anchors": ["pycircstat2/descriptive.py:nonparametric_density_estimation", "pycircstat2/descriptive.py:compute_smooth_params"]}
{"id": "C215", "title": "The density curve of a plot", "statement": "For ungrouped data circ_plot draws the density curve asked for in config['density']: none for False; the kernel estimate at 100 angles by default or with True, with the bandwidth 'h0' if given; the fitted mixture's density for method 'MovM'; the ordinates 'f' at the angles 'x', or at evenly spaced angles from 0 to 2 pi without 'x'.", "quantifier": "every object, every configuration with which circ_plot returns", "why_tests_cant": "All nested configurations.", "anchors": ["pycircstat2/visualization.py:circ_plot", "pycircstat2/visualization.py:_merge_dicts"]}
{"id": "C216", "title": "The predicted density of a fitted mixture is a probability density", "statement": "After fit, predict_density of MovM, MoKJ and MoCD gives the values of one 2 pi-periodic function that is non-negative and integrates to 1 over a turn, at whatever points and in whatever unit they are given, and on the default grid.", "quantifier": "every data set, every number of components, every fit that returns, every list of points, every unit and full_cycle", "why_tests_cant": "An integral over the circle and positivity at every angle, after an iterative fit of arbitrary data.", "anchors": ["pycircstat2/clustering.py:MovM.predict_density", "pycircstat2/clustering.py:MoKJ.predict_density", "pycircstat2/clustering.py:MoCD.predict_density"]}
{"id": "C217", "title": "The mixtures accept exactly meaningful settings", "statement": "MovM, MoKJ and MoCD can be constructed exactly when burnin is not negative, n_clusters, n_iters and threshold are positive and unit is 'degree' or 'radian', and keep these settings; MoCD moreover needs one of its five families with a weighted fit and known parameter names. Otherwise a ValueError is raised (a TypeError by MoCD for an object that is not a circular distribution).", "quantifier": "every combination of settings", "why_tests_cant": "All combinations of settings and distributions, including the ones behind an earlier check.", "anchors": ["pycircstat2/clustering.py:MovM.__init__", "pycircstat2/clustering.py:MoKJ.__init__", "pycircstat2/clustering.py:MoCD.__init__"]}
{"id": "C218", "title": "MoCD estimates every component by the requested method", "statement": "After MoCD.fit every component is an estimate returned by distribution.fit with the requested method: fit_kwargs['method'] if given, else fit_method; with 'auto' by moments, or by mle where moments raised. Estimates given as a sequence are assigned to the parameter names in order, estimates given as a dictionary by name.", "quantifier": "every data set, number of iterations and components, every behaviour of distribution.fit, every method setting", "why_tests_cant": "Quantifies over all failures of the underlying fits during the iteration.", "anchors": ["pycircstat2/clustering.py:MoCD.__init__", "pycircstat2/clustering.py:MoCD._normalise_fit_method", "pycircstat2/clustering.py:MoCD._fit_component", "pycircstat2/clustering.py:MoCD._array_to_params", "pycircstat2/clustering.py:MoCD._params_to_array"]}
{"id": "C219", "title": "n_clusters_max compares every number of modes by BIC and keeps the best", "statement": "Circular(data, n_clusters_max=K) with K > 1 fits one von Mises mixture with k components for every k from 1 to K to the observations, each angle repeated as often as its weight. Each fit has a BIC made of the log likelihood and 3k - 1 free parameters. mixture_opt is the fit with the smallest BIC, the first one among equals, and it is None only when no fit has a BIC.", "quantifier": "For all weighted samples, all K and all sequences of labellings the generator can draw", "why_tests_cant": "The claim ranges over all samples and over every random start; a test sees one seed and a few samples, and would not meet the balanced samples for which the one-component fit has no BIC.", "anchors": ["pycircstat2/base.py:298-314", "pycircstat2/base.py:326-333", "pycircstat2/clustering.py:343-358"]}
{"id": "C220", "title": "The reported number of modes does not depend on the zero direction, the unit or the grouping", "statement": "Turning all data by one angle, giving them in another unit or with another full_cycle, or listing the observations one by one instead of with weights changes neither the BIC values nor the number of clusters that a Circular object reports; the weights and labels of every fitted mixture stay, and the means turn along.", "quantifier": "For all samples, all rotations, all weights and all numbers of clusters", "why_tests_cant": "Invariance relates two runs of an iterative fit for every rotation and every sample; a test can only compare a few pairs.", "anchors": ["pycircstat2/base.py:298-314", "pycircstat2/clustering.py:126-275"]}
{"id": "C221", "title": "The coefficient tables of CLRegression.summary are Wald tables", "statement": "CLRegression.summary prints one row for each coefficient: the estimate, its standard error, the t value estimate / standard error, the two-sided p-value of that t value under the normal law and the mark of the p-value. The mean and mixed models have the table of beta, the kappa and mixed models that of alpha and gamma. The p-value is 1 exactly when the estimate is 0, and a larger |t| has a smaller p-value.", "quantifier": "every sample, model type and fit with kappa > 0", "why_tests_cant": "The summary is only printed; tests do not read it, and a sign lost in one of the two tables shows only for negative coefficients.", "anchors": ["pycircstat2/regression.py:510-621", "pycircstat2/utils.py:122-133"]}
{"id": "C222", "title": "The coefficient table of CCRegression.summary describes the fitted directions", "statement": "CCRegression.summary prints one row for the intercept and one for each cosine and sine term. Multiplying each coefficient by the term its label stands for and adding up gives the cosine and sine parts of the fitted direction at every observation, and the labels name the predictors as feature_names does.", "quantifier": "every sample, number of predictors and order", "why_tests_cant": "The table is read by position from two coefficient vectors; a shift between labels and columns prints plausible numbers for every sample.", "anchors": ["pycircstat2/regression.py:833-873", "pycircstat2/regression.py:728-770", "pycircstat2/regression.py:692"]}
{"id": "C223", "title": "The level reported with the median's interval is its coverage", "statement": "For 3 to 15 observations circ_median_ci returns order statistics and a level. When the observations are independent draws from a law without atoms, the probability that the interval contains the law's median is the reported level, up to 0.002 (0.006 for n = 14).", "quantifier": "every law without atoms, every position of its median, every sample size from 3 to 15", "why_tests_cant": "A test sees one sample; the level is a statement about all 2^n ways the observations fall around the median.", "anchors": ["pycircstat2/descriptive.py:1217-1344"]}
{"id": "C224", "title": "summary() describes the data in their own unit", "statement": "The summary of a Circular object is always printed. It reports the sample size, the direction of the resultant of the readings as a reading on the same cycle, the Rayleigh p-value with its mark, the interval of the mean only for p < 0.05 and the interval of the median only for ungrouped data. Giving the same readings in another unit multiplies every printed angle by the ratio of the cycles and changes nothing else.", "quantifier": "every object the constructor returns, every unit and cycle", "why_tests_cant": "The text is only printed; a missed conversion shows in one unit only, and the failing options are rare.", "anchors": ["pycircstat2/base.py:316-427", "pycircstat2/utils.py:34-40"]}
{"id": "C225", "title": "The summary names a method for the mean's interval exactly when it prints one", "statement": "The section Method of summary() names the method of the mean's interval if and only if the interval is printed.", "quantifier": "every object, default or given kwargs_mean_ci", "why_tests_cant": "The mismatch needs a sample that is not significant together with kwargs_mean_ci.", "anchors": ["pycircstat2/base.py:238-267", "pycircstat2/base.py:316-363"]}
{"id": "C226", "title": "time2float converts times of day exactly", "statement": "For hours and minutes written as decimal numerals, time2float returns hours + minutes / 60 for every entry in order; anything it converts has exactly one separator per entry and an empty input is a ValueError; times of one day are ordered as on the clock and minute k of the day is the direction 2 pi k / 1440 on a circle of 24 hours.", "quantifier": "all non-empty lists of times, all one-character separators that are not digits", "why_tests_cant": "Tests convert a few literals; the claim is about every string of digits and every separator.", "anchors": ["pycircstat2/utils.py:43-52"]}
{"id": "C227", "title": "TestResult.significance reports stars or says there are none to report", "statement": "significance(attr) is None exactly when the attribute is absent, None or not a number; for a p-value it is the code of its threshold interval, so a smaller p-value never has fewer stars; a p-value that could not be computed (NaN) is told apart from one that is not significant.", "quantifier": "all results, attribute names and values", "why_tests_cant": "Tests look at single p-values; thresholds and NaN need all values.", "anchors": ["pycircstat2/hypothesis.py:91-104", "pycircstat2/utils.py:122-133"]}
{"id": "C228", "title": "The closed form of the resultant length of cartwright is that of its density", "statement": "cartwright._moment_r(zeta), a product of gamma functions, is the mean resultant length of cartwright.pdf(., mu, zeta) for every mu: 1 / (1 + zeta); a zeta <= 0 anywhere in the input is a ValueError.", "quantifier": "all zeta > 0, all mu, all input lists", "why_tests_cant": "Equality of a product of gamma functions with an integral for every real zeta needs Legendre's duplication formula; a test compares two floats at a few zeta.", "anchors": ["pycircstat2/distributions.py:1769-1790"]}
{"id": "C229", "title": "random_state makes samples reproducible", "statement": "rvs with an integer seed returns the same sample whatever was drawn before and changes no state. Calls that pass one Generator draw consecutively from it, and no other call touches it. Calls that pass one RandomState draw from generators seeded by its successive numbers. Calls without random_state draw consecutively from the Generator of the distribution once it holds one. After np.random.seed(z) a call without random_state returns the same sample again.", "quantifier": "every distribution, every history of calls and reseedings, every sampler", "why_tests_cant": "The answers depend on the whole history of calls on a module-level object; a test sees a few histories.", "anchors": ["pycircstat2/distributions.py:234-268", "pycircstat2/distributions.py:CircularContinuous._init_rng", "pycircstat2/distributions.py:vonmises_gen.rvs", "pycircstat2/distributions.py:jonespewsey_gen.rvs"]}
