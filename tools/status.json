{
"C01": ["proved", "Scalar angmod in exact arithmetic; arrays are element-wise."],
"C02": ["proved", ""],
"C03": ["proved", ""],
"C04": ["proved", ""],
"C05": ["proved", "k = None in rad2data is the identity and is modelled but carries no claim."],
"C06": ["proved", ""],
"C07": ["proved", "circ_var needs equal weights; unequal weights trigger the bin correction, see C73."],
"C08": ["proved", ""],
"C09": ["proved", ""],
"C10": ["proved", "Integer weights."],
"C100": ["proved", "geodesic metric: training and new angles within one turn"],
"C101": ["proved", "For MovM under the condition that no returned mean is NaN (see C53)."],
"C102": ["proved", ""],
"C103": ["partial", "Proved for MoKJ. False for MovM: the last entry belongs to the parameters before the last update (C103_movm_refuted; the Bessel function enters through its first Taylor terms)."],
"C104": ["proved", ""],
"C105": ["partial", "Proved, except that identical angles get kappa = 1e-3 because circ_kappa(1) is 1e-16 (C105_identical_refuted)."],
"C106": ["partial", "Proved inside the safety margins; false near the boundary (C106_refuted: gamma = 0.99, rho = 0.985)."],
"C107": ["partial", "Proved for triangular, cardioid, wrapcauchy; for katojones (every integer order) up to rho = 1 - 1e-7. Refuted for katojones next to rho = 1: the floor 1e-15 of the denominator takes mass away, and the order-0 moment is not the 1 returned."],
"C108": ["partial", "Proved for 1e-15 < rho <= 1 - 2e-5; refuted at rho = 1 - 1e-5 where every draw equals mu."],
"C109": ["proved", "brentq is an oracle assumed to return a zero of the score when the score changes sign."],
"C11": ["proved", ""],
"C110": ["partial", "Refuted: next to 0 the truncated series is negative and is reduced modulo 1 to nearly 1."],
"C111": ["partial", "The range is proved; inversion is refuted for small q (the probability of [0, ppf(q)] is less than q/1000)."],
"C112": ["partial", "Parameter range, moment matching and absence of errors proved; refuted for balanced samples, where mu is NaN."],
"C113": ["proved", "The Bessel functions are any functions satisfying their integral representation."],
"C114": ["partial", "Within 1e-10 (4e-9 for kappa < 1e-9) outside the isclose window next to 2 pi, trusting the quadrature for kappa > 460; refuted as an equality inside the window."],
"C115": ["partial", "Within 8e-9 in angle and 2e-10 in probability for q up to the mass of [0, 2 pi - 9e-5]; refuted for q = 1 - 1e-7, kappa = 1, mu = 0."],
"C116": ["proved", "Acceptance probability and proposal law; the uniforms are given."],
"C117": ["proved", ""],
"C118": ["partial", "Refuted: positional parameters raise, kappa = -1 is accepted."],
"C119": ["proved", "For any monotone ndtr."],
"C12": ["proved", ""],
"C120": ["proved", ""],
"C121": ["partial", "Within 1e-12 plus the tail rho^900/(45(1-rho)) of the truncated series, hence 2e-12 for rho <= 0.96, outside the isclose window next to 2 pi; refuted as an equality inside the window. ndtr is any function with the normal density as derivative and limits 0, 1 (existence proved)."],
"C122": ["partial", "For rho <= 0.96; for rho close to one refuted: the truncated series of pdf has other quantiles."],
"C123": ["proved", "For rho up to 1 - 1e-15; the normal variate enters through its distribution function ndtr."],
"C124": ["proved", "The total mass and n = 1 are exact; accuracy 1e-12 for every n under the condition that 20000 terms suffice. At alpha = 1 with beta <> 0 the law is not the stable one (C67)."],
"C125": ["partial", "Proved for alpha >= 1 and exp(-gamma^alpha) <= 1/3; refuted for gamma = 1e-9, alpha = 2 (20000 terms are not enough)."],
"C126": ["partial", "Proved for every parameter vector whose truncated series is non-negative, outside two windows; refuted (not monotone) for gamma = 1e-9."],
"C127": ["proved", "C127_inverts is unconditional; C127_root adds the probability statement where pdf is non-negative."],
"C128": ["proved", ""],
"C129": ["proved", ""],
"C13": ["partial", "Agreement proved outside the band 1e-12 < r <= 1e-8; inside it the full statement is refuted with a witness."],
"C130": ["proved", ""],
"C131": ["proved", "scipy.special.iv, lpmv and quad_vec are assumed correct."],
"C132": ["partial", "Exact for psi = 1 and kappa < 1e-3, equal to vonmises.cdf for |psi| < 1e-6, the clipped integral of a truncated series otherwise; refuted for kappa = 14, psi = -1 (cdf decreases)."],
"C133": ["proved", "Relative to the class's own cdf; no assumption on the quadrature or on monotonicity."],
"C134": ["partial", "The reported log-likelihood is at least that of the estimates; refuted that they are equal."],
"C135": ["proved", "scipy.special.iv, lpmv and quad_vec are assumed correct."],
"C136": ["partial", "Proved for kappa >= 1e-3 with |lmbd| >= 1e-12 or lmbd = 0; refuted for kappa < 1e-3."],
"C137": ["proved", "quad_vec is assumed correct."],
"C138": ["partial", "Error at most L/48 for an L-Lipschitz density; refuted for kappa = 14, psi = -1, nu = 0."],
"C139": ["partial", "Proved for |lmbd| < 1; refuted for |lmbd| = 1, where rvs raises ValueError although the parameters are admissible."],
"C14": ["partial", "Proved when every group has a mean direction; refuted when one group has none (NaN spreads to the pooled result)."],
"C140": ["proved", "For scalar shapes; keywords of scipy's expect other than shapes, loc and scale are outside the model."],
"C141": ["proved", "The trigonometric moments are exact integrals (scipy's expect is an oracle)."],
"C142": ["proved", "For distributions with r > 1e-12."],
"C143": ["proved", ""],
"C144": ["proved", "vonmises: under the hypotheses that I1/I0 and I2/I0 lie in the stated ranges."],
"C145": ["partial", "Refuted: median is the quantile of one half counted from 0 (C145_refuted)."],
"C146": ["proved", "Finite angles; quad is exact."],
"C147": ["partial", "Law proved in full; the total is proved to be one up to the trapezoidal error pi kappa (1 + |nu|)/512 (the true error is far smaller). Missing: the total at machine precision."],
"C148": ["proved", ""],
"C149": ["partial", "Refuted for kappa = 1000 (C149_refuted): the table saturates and cdf falls to 0 before the end of the turn. Proved for kappa <= 348 with the error of the 512-cell table."],
"C15": ["proved", ""],
"C150": ["partial", "Proved for kappa <= 348 and 1e-12 < q < 1 - 1e-12; refuted for levels next to one. Missing: larger kappa, where C149 fails."],
"C151": ["partial", "Refuted both ways: the flat-topped pdf clips kappa before the check while cdf and ppf do not; for inverse Batschelet it is the other way round."],
"C152": ["proved", ""],
"C153": ["proved", ""],
"C154": ["proved", "The root finder is assumed to return a root of a continuous function with a sign change."],
"C155": ["partial", "Proved for kappa <= 700 and lambda = 1, -1 or at least 1e-4 away from both, with the total one up to the trapezoidal error of the normalising constant (exactly one for lambda = 0 and 1). Missing: lambda next to the ends, where normaliser and kernel use different tests; a sharper bound of the total."],
"C156": ["partial", "Proved for 1e-9 < kappa <= 700; refuted beyond (C156_refuted), because kappa is silently cut at 700."],
"C157": ["proved", "Every statistic and the exception are equal."],
"C158": ["partial", "Proved for units other than degree, radian, hour. Refuted for unit='degree', full_cycle=365: 200 and 200 - 365/2 give different means."],
"C159": ["partial", "Proved for data within [0, one cycle]. Refuted for data [-1, 1] in radians: n = 1."],
"C16": ["proved", ""],
"C160": ["proved", "Counts, centres, bounds, bin size and n."],
"C161": ["proved", "Also the same exception; unknown units raise."],
"C162": ["proved", "Ungrouped or explicitly weighted data (bins not given)."],
"C163": ["partial", "Proved when the total weight is an integer. Refuted for weights [1.5, 0]: n = 1 and R = 1 instead of 1.5."],
"C164": ["partial", "Proved for n, mean, r, R, p-value, kappa and method, and for the standard deviations if the bin size is the same. Refuted in general: bins 0, 90, 270 in another order give bin size -3 pi/2 and NaN standard deviation."],
"C165": ["partial", "Refuted: the level is always 0.95 and 'method' is popped from the user's dictionary, so the second object uses the bootstrap."],
"C166": ["partial", "Refuted: whenever circ_median returns several medians the constructor raises; witness [0, 0, 90] degrees."],
"C167": ["partial", "Refuted: a sample of 16 or more observations whose median leaves no room for the interval raises IndexError."],
"C168": ["proved", "Interval contains the mean (C168_interval); construction succeeds without median computation (C168_built)."],
"C169": ["partial", "Refuted for a sample of eight with every row at one direction: the turned data give another direction."],
"C17": ["partial", "Proved for |x-y| <= 2 pi; refuted beyond one turn."],
"C170": ["proved", "For every set of resampled rows."],
"C171": ["partial", "Proved when cos and sin are uncorrelated in the sample. Refuted otherwise (the 1 inside the denominator): covariance -1/32, off-diagonal of v0 squared 0."],
"C172": ["partial", "Even number of bins: proved that a single median splits the counts in half and that the call never raises (up to 10^6 bins). Refuted for three bins with counts 1, 1, 0: the median is 180 degrees, the axis of symmetry 60 degrees."],
"C173": ["proved", ""],
"C174": ["proved", ""],
"C175": ["proved", ""],
"C176": ["proved", ""],
"C177": ["proved", ""],
"C178": ["partial", "Refuted: cos and sin are tested separately, so the verdict changes when the responses are turned."],
"C179": ["partial", "Refuted for two predictors: the factor is n - (2 order + 1) whatever the number of predictors. Proved for one predictor."],
"C18": ["proved", ""],
"C180": ["proved", ""],
"C181": ["proved", ""],
"C182": ["partial", "Refuted for runs stopped by max_iter (the values belong to the coefficients before the last update); proved of every run that one more iteration does not change."],
"C183": ["partial", "Refuted: the constant - n ln(2 pi) is missing. Proved up to the constant, of every run that one more iteration does not change."],
"C184": ["proved", ""],
"C185": ["proved", ""],
"C186": ["partial", "Refuted for beta: its right-hand side uses theta - mu instead of the residual and omits the current beta. Proved for alpha and gamma."],
"C187": ["proved", ""],
"C188": ["proved", "For the concentration and mixed models turning assumes that no iterate has a zero weighted resultant (then mu is not defined)."],
"C189": ["partial", "Refuted: the ridge 1e-8 is added whatever the units; nothing weaker is claimed."],
"C19": ["partial", "Proved for angles within one turn of each other and r below the early exit; refuted beyond one turn."],
"C190": ["partial", "Refuted: mu (and kappa in the mean model) are not counted, and not by the same number in all models. Proved with the counts used."],
"C191": ["partial", "Refuted for the concentration model with beta0. Proved for the other models and without beta0; scalars raise IndexError."],
"C192": ["partial", "Refuted: max_iter = 0 raises UnboundLocalError and a constant response gives NaN. Proved otherwise: with an iteration only ValueError is raised, and the concentration and mixed models give numbers."],
"C193": ["partial", "Proved: alpha and gamma (orthogonal to the location, up to the ridge), kappa of the mean model, beta with mu known, mu with the others known times 1 - p/n or minus 1/2. Refuted: beta ignores that mu is estimated (half the variance missing), and the standard errors of the concentrations of the observations."],
"C194": ["proved", "The envelope of the code is above the public density at every angle. Random numbers are arguments; that draws of vonmises.rvs and rng.uniform follow their laws is assumed, not modelled."],
"C195": ["partial", "C195_envelope_refuted: with kappa = 14, psi = -1, nu = 1/650 the peak lies between two grid angles and the envelope is below a quarter of the density there. C195_rejection_partial proves the envelope for kappa ((1 + nu) cosh(kappa psi) + 4/3) <= 21/2 and the acceptance rule always."],
"C196": ["proved", "For gamma functions characterised by Bohr and Mollerup; the normalising constant is proved from that."],
"C197": ["partial", "Refuted: within about 6.3e-5 below 2 pi np.isclose makes the cdf 1 (no admissible parameters escape).  Exact for x <= 2 pi - 9e-5."],
"C198": ["proved", "scipy's betainc and betaincinv are assumed to be the regularised incomplete beta integral and a right inverse."],
"C199": ["proved", "The draws of rng.beta and rng.random are inputs; the law of t is scipy's."],
"C20": ["proved", ""],
"C200": ["partial", "Refuted for an observation opposite to mu: density 0, finite log-likelihood (floor 1e-15).  Proved when every 1 + cos(x - mu) is at least 1e-15; the gradient when it exceeds 1e-15."],
"C201": ["proved", "The optimiser is an input; its contract is bounded_min in CwSpec.v."],
"C202": ["proved", ""],
"C203": ["proved", "The optimiser is an oracle; its contract is box_min."],
"C204": ["partial", "The log-likelihood claim is refuted for concentrated samples (denominator floored at 1e-15); proved when the floor is inactive."],
"C205": ["proved", "The optimiser is an oracle; its contract is box_min."],
"C206": ["proved", "brentq is an oracle; its contract is the hypothesis of C206_info."],
"C207": ["proved", ""],
"C208": ["partial", "Proved for cardioid; refuted for triangular: rvs does not check rho and fit treats every method name other than 'moments' as 'mle'."],
"C209": ["partial", "User values and unmentioned defaults are proved to end up where they should, at every depth; True at the first level is the default value, so for the documented option spine (default False) {\"spine\": True} is refuted: the spine is hidden in every plot."],
"C21": ["proved", ""],
"C210": ["partial", "Proved for ungrouped objects with a median. Refuted otherwise: an ungrouped object without a median raises AttributeError (median_lb is never set), and every grouped object raises (no mixture: AttributeError; with one: KeyError on the undocumented rlim_max). Also proved: what a grouped object needs in order to be drawn, and a configuration that draws every one."],
"C211": ["partial", "Number, centres, width and heights of the bars proved for every number of bins. Refuted for angles outside [0, 2 pi], which the constructor keeps: observations at -90 degrees are in no bar. The counts are proved to add up to the number of angles in [0, 2 pi]."],
"C212": ["proved", "Exact arithmetic: the radii np.arange gives are taken as the multiples of 0.05."],
"C213": ["partial", "Proved for intervals of two distinct bounds, mean and median. Refuted for an interval that is one point: three equal observations have the median interval (m, m), drawn as the whole circle."],
"C214": ["partial", "Proved for observations in [0, 2 pi] and bandwidths up to pi. Refuted for other names of the directions: abs(x - a) above 2 pi makes the distance negative, and an observation at -90 degrees raises the density a quarter turn away. Refuted for the bandwidth compute_smooth_params returns: it can exceed pi, and the total is then below 1."],
"C215": ["proved", "nonparametric_density_estimation and predict_density are arguments; the former is C214's."],
"C216": ["partial", "Proved for MoKJ after every fit, for MovM whenever the fit left no NaN, and for MoCD with families whose fits give positive densities. Refuted for MovM after a balanced start (all NaN) and for MoCD(wrapnorm) on concentrated data (negative density)."],
"C217": ["proved", ""],
"C218": ["proved", "param_names are taken to be distinct."],
"C219": ["partial", "Proved: the candidates, their BIC and the choice for every sample that yields an object; K above the number of observations raises ValueError and float weights raise TypeError. Refuted: not every candidate has a BIC; a sample with zero resultant has NaN for one component and so is never reported unimodal."],
"C22": ["proved", "Mean, r, n and the critical value are arguments; the chi2/normal quantile is any admissible number."],
"C220": ["proved", "For the same drawn labellings (the generator has a fixed seed and sees only the sample size and k)."],
"C221": ["partial", "Proved: rows, standard errors, p-values, marks, and the signed t values of alpha and gamma. Refuted: the t value of beta is |estimate| / standard error, positive for a negative coefficient."],
"C222": ["partial", "Proved: labels read as x1, x2, ... for the first, second, ... predictor match the coefficients. Refuted: the labels are not the feature names; with predictors named x0 and x1 the row labelled x1 belongs to x0."],
"C223": ["partial", "Proved for 3 to 14 observations when the circle is cut at a direction that the sides do not cross. Refuted for 15 observations (reported 0.965, covers with probability above 0.992) and for a median at direction 0 (never covered)."],
"C224": ["partial", "Proved: the lines and the change of unit. Refuted: the summary of grouped data with several medians and return_average=False raises TypeError; proved to be the only failure."],
"C225": ["partial", "Proved for the default kwargs_mean_ci and a mean that is not NaN. Refuted with kwargs_mean_ci given and p >= 0.05: the method is named and no interval printed."],
"C226": ["proved", ""],
"C227": ["partial", "The last clause is false: NaN is reported as the empty code, as for p = 0.5 (C227_nan_refuted). The rest is proved."],
"C228": ["proved", ""],
"C229": ["partial", "Seeds, generators, RandomStates and held streams proved for every distribution and history; reseeding numpy proved for the distributions that go through rvs of scipy and refuted for the others."],
"C23": ["partial", "Refuted with a 17-point sample; the exact condition for the IndexError is proved for critical values up to sqrt n."],
"C24": ["partial", "Non-negative everywhere; monotone on each side of r = 0.85; refuted across 0.85 and at r = 1."],
"C25": ["proved", ""],
"C26": ["proved", "All n >= 1 and r in [0,1]; also strict monotonicity, exact error conditions, and the sample call reduced to the (r, n) call."],
"C27": ["proved", ""],
"C28": ["partial", "Projection identity, bound, maximum, rotation and whole turns proved for integer total weight; refuted for fractional total weight (int(sum(w)) truncates)."],
"C29": ["proved", "Both the given-bounds and the sample calls; the chi-square quantile is an arbitrary positive real."],
"C30": ["partial", "Rotation invariance and pval > 0 refuted (only half circles starting in [0, pi) are scanned; opposite points give pval 0). Proved: exact characterisation of the scan, p-value formula, order and whole-turn invariance."],
"C31": ["proved", "Exact counts, p-value bounds, reflection; antipodal observations are counted in n2."],
"C32": ["proved", "Watson-Williams for all tabulated samples, circ_anova F-test for non-empty groups; infinite/NaN cases stated."],
"C33": ["proved", "Exact equality of the whole Watson-Williams result; all of circ_anova's F-test report except mean directions."],
"C34": ["proved", ""],
"C35": ["proved", ""],
"C36": ["proved", ""],
"C37": ["proved", ""],
"C38": ["partial", "Value, errors and range proved; swap symmetry proved unless F = 1 with unequal sizes, refuted there."],
"C39": ["proved", "Whenever the statistic is finite."],
"C40": ["proved", "The reported k_r, k_t are the maximising split minus one; tmax is NaN iff an admissible split has a one-direction segment."],
"C41": ["proved", "High-concentration table with interaction, every cell observed."],
"C42": ["partial", "Proved for ascending samples without near ties; order independence and p <= 1 refuted."],
"C43": ["proved", "Ungrouped samples; grouped ones see C90."],
"C44": ["proved", "Given a unique pooled median (the default median of circ_median); error cases included."],
"C45": ["proved", ""],
"C46": ["partial", "Everything except strict mode is proved. The strict-mode sentence is refuted: _coerce_angles reads the attribute mean_pval, which Circular never sets, so strict=True never raises (C46_strict_refuted)."],
"C47": ["proved", ""],
"C48": ["proved", "Invariance is proved whenever both calls return a number (C48_invariant_values), and unconditionally when the angles are spread in every direction (C48_invariant). For two opposite directions the kind of failure depends on the zero direction (C48_orientation_refuted)."],
"C49": ["partial", "Everything proved for the initial number of clusters; the count min(n, n_clusters) is refuted for n_init_clusters < n_clusters < n (C49_count_refuted)."],
"C50": ["partial", "Proved for angularseparation, chord, geodesic; refuted for the signed metric 'center'."],
"C51": ["partial", "Proved while all centres are defined (geodesic: data within one turn); refuted when a centre becomes NaN, after which every label is that centre."],
"C52": ["partial", "Refuted: predict raises IndexError for every input; proved that this happens for every such fit."],
"C53": ["partial", "Full bookkeeping proved for MoKJ and MoCD. For MovM the passes, stopping rule and responsibilities are proved, but a starting group whose resultant vanishes makes every responsibility NaN and nLL empty (C53_movm_refuted). Component densities are assumed positive on the data."],
"C54": ["partial", "False: a fit that does not converge keeps the flag of an earlier fit (C54_refuted). Proved: the first fit of an estimator reports the truth, and nothing but the flags depends on the history."],
"C55": ["partial", "False: MoCD.bic converts angles that are already in radians (C55_refuted). With unit radian it is the textbook value."],
"C56": ["proved", ""],
"C57": ["partial", "Proved for circularuniform, triangular, cardioid and wrapcauchy, and for katojones up to rho = 1 - 1e-7 with the documented constraint; the unclipped katojones formula is non-negative exactly under that constraint. Refuted for what katojones._argcheck admits: its slack of 1e-12 lets the clipped pdf integrate to more than 1. Refuted for documented parameters next to rho = 1: the floor 1e-15 of the denominator makes the pdf integrate to less than 1."],
"C58": ["partial", "circularuniform, triangular and cardioid: cdf is the distribution function of pdf (value, monotone, integral, derivative). wrapcauchy: refuted for every parameter (cdf is 1 on the last 6e-5 of the turn); exact outside the stated windows."],
"C59": ["partial", "circularuniform: exact both ways. triangular: 1e-12 always, exact for rho > 1e-12. cardioid: 2^-32 for every parameter. wrapcauchy: refuted near 2 pi; 1e-15 elsewhere."],
"C60": ["partial", "Proved for rho <= 0.94 (pdf is then a strictly positive density); refuted for rho = 1 - 1/2000."],
"C61": ["partial", "Refuted: the cdf falls from above 1/2 to 0. Non-decreasing where more than 1e-12 of the probability remains and x is not in the last 9e-5 of the turn."],
"C62": ["partial", "Refuted: entropy returns ln(2 pi) minus the differential entropy (C62_offset for every kappa, C62_refuted at kappa = 1/10)."],
"C63": ["partial", "cardioid and wrapcauchy gradients are the partial derivatives; the mu component of the vonmises gradient has the wrong sign (refuted), its kappa component is right."],
"C64": ["partial", "Refuted at rho = 0, gamma > 0 (off by 1/(2 pi)); within 1e-10 of the integral for rho <= 0.99 away from the ends."],
"C65": ["proved", "Both compositions, the projection as nearest point, identity on feasible moments and admissibility of the result."],
"C66": ["partial", "Refuted (C66_refuted): after one call of inverse_batschelet.cdf the pdf of the same parameters (kappa = 400, lambda = 1, nu = 0) is at most 10/19 of its former value everywhere, because building the table overwrites the cached normalising constant. Proved: the base-class cache alone is transparent; the pdf of inverse_batschelet keeps its value after any calls that build no table for the same kappa and lambda."],
"C67": ["partial", "C67_refuted: the first sine moment jumps between alpha = 1 and alpha = 1 + 2e-10 (wrong sign of the phase correction in the alpha = 1 branch). That draws follow another location parametrisation than pdf is noted in DESIGN.md and not formalised."],
"C68": ["partial", "For kappa >= 1e-3 cdf starts at 0 (C68_starts_partial) and is the clipped integral of a truncated series; exact for psi = 1. Refuted for kappa < 1e-3: it decreases."],
"C69": ["partial", "Refuted for positional loc and scale and for values within the np.allclose tolerance (C69_refuted); C69_partial and C69_fit prove the keyword rules for every family."],
"C70": ["partial", "Proved for the mean (half the argument of the resultant of the doubled angles). Refuted for the median: readings agreeing on one axis give mean m and median 2 m."],
"C71": ["partial", "Refuted in general: every significant equally spaced grouped sample with 8 <= n < 25 raises ValueError, because the bootstrap ignores the counts; witness 10 observations in one of 4 bins. For n >= 25 see C168."],
"C72": ["partial", "False for full_cycle other than 360 when the unit is not radian (C72_refuted); exact condition proved."],
"C73": ["partial", "Refuted: negative variance and NaN standard deviations for a concrete grouped sample. The bound for equal weights is C07."],
"C74": ["partial", "Refuted; the first bin is always returned."],
"C75": ["partial", "Proved below the early-exit threshold; refuted above it."],
"C76": ["partial", "Proved for the count method and, within one turn, for the deviation method; refuted beyond."],
"C77": ["proved", ""],
"C78": ["partial", "Proved for n > 15 with distinct ends; refuted for n = 4."],
"C79": ["proved", ""],
"C80": ["proved", ""],
"C81": ["proved", "chi2 survival function is an arbitrary function argument."],
"C82": ["proved", "scipy wilcoxon is an arbitrary function of the offsets."],
"C83": ["partial", "Watson proved (via a finite triple product identity); Kuiper refuted: every sample of two or more equal angles gets a negative p-value."],
"C84": ["partial", "Proved for angles within one turn (C34-C36); refuted in general: the tests do not wrap their input."],
"C85": ["proved", ""],
"C86": ["partial", "Proved for exactly integral weights; refuted for accepted near-integers, which astype(int) truncates."],
"C87": ["partial", "Formula, NaN and error cases proved; non-negativity refuted."],
"C88": ["partial", "Small and moderate regime need at least five / four observations per group; refuted for smaller groups."],
"C89": ["partial", "Proved without ties; with ties sample order changes W (refuted)."],
"C90": ["partial", "Rejection and expansion proved for three tests; refuted for wallraff_test."],
"C91": ["partial", "H_disp proved; H_polar refuted."],
"C92": ["partial", "Sums of squares proved; degrees of freedom add up to pq - 1 instead of n - 1; negative interaction in an unbalanced design (refuted)."],
"C93": ["partial", "agreement with circ_kappa proved for every r in [0, 1); monotonicity proved on [0, 0.85) and [0.85, 1) and refuted across 0.85, where the value drops"],
"C94": ["partial", "Rotation and reflection are proved for angles in [0, 2 pi); without that restriction the rotation claim is refuted, since the code ranks raw values (C94_turns_refuted)."],
"C95": ["proved", ""],
"C96": ["proved", "n_init_clusters=None (the default). With a K-means initialisation the metric 'geodesic' depends on the cut, see C17."],
"C97": ["proved", ""],
"C98": ["partial", "Refuted by a three-point data set with max_iter=1; proved that predict returns the labels of the next iteration, and labels_ when the centres did not move."],
"C99": ["partial", "Edge cases and range proved; equality with the standard silhouette refuted on three points."]
}
