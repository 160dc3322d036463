# Formal model of pycircstat2 — design

Source read: `/repo` (pycircstat2 at the pinned commit), as text only. Nothing
in `/repo` was built, run or changed. All line numbers are lines of the files in
`/repo/pycircstat2`.

## 1. What is modelled and how

* Language of the model: Rocq/Coq 8.16.1, shallow embedding, one Gallina
  function per Python function, branch by branch. Exceptions are values
  (`Ok a | Err e`), NaN / infinities that the code returns on purpose are values
  (`Fin x | NaN | PInf | NInf`).
* **Numbers.** Floating point numbers are idealised as exact reals (`R` of the
  standard library). Every property about the real-number formulas is therefore
  about the exact-arithmetic semantics of the code; rounding error is outside
  the model. Literal tolerances of the code (`1e-8`, `1e-12`, `isclose`,
  `np.round(.,5)`) are kept in the model because they change the result even in
  exact arithmetic.
* **Arrays** are lists of reals. Broadcasting is unrolled into list functions.
  Shapes that numpy rejects are either error values or hypotheses stated in the
  theorem.
* **External functions** (scipy distributions, Bessel functions, random number
  generators, optimisers, `quad`) are function arguments of the model.
  Where a property needs a fact about them (for instance "a survival function
  is antitone"), the fact is an explicit hypothesis of the theorem, and an
  Example shows that it can be met.
* **numpy primitives** (`np.mod`, `np.sort`, `np.diff`, `argmin`, `np.roll`,
  `np.round`, `np.arctan2`, `np.isclose`, ...) are modelled in `Np*.v` from their
  documentation; these definitions are part of the trusted reading.

Not modelled: the drawing itself (of `visualization.py` the configuration and the coordinates
handed to matplotlib are), printing/verbose output,
`load_data`, `__repr__`, dtype/shape coercions other than those named, numerical
optimisers and quadrature internals, float rounding, overflow and warnings.

* **Integrals** are the Riemann integrals of the standard library (`RiemannInt`);
  `IntSpec.v` wraps them in the relation `integral f a b v`. Bessel functions are
  characterised by their integral representation.
* **Distributions**: scipy's public `pdf`/`cdf`/`ppf` wrappers (support, argument
  check, end points) are modelled once in `DistModel.v`. The one-ulp tolerance of
  `_wrap_angles` around 2 pi is idealised to equality. Parameters are scalars.

## 2. Trusted base

1. Coq's kernel (8.16.1).
2. The axioms printed by `Print Assumptions` under each theorem. They are the
   standard library's axioms for classical real numbers
   (`ClassicalDedekindReals.sig_forall_dec`, `ClassicalDedekindReals.sig_not_dec`,
   `FunctionalExtensionality.functional_extensionality_dep`) and, where the
   standard library's analysis files use it, `Classical_Prop.classic`. No other
   library is used. No
   axiom is declared in this development and none comes from a non-standard
   library.
3. The reading of the Python text, recorded next to each definition as file and
   lines, and the readings of the numpy primitives.

## 3. File layout (`rocq/theories`)

For each area `X` there are four files: `XModel.v` (definitions only, with
citations), `XSpec.v` (small independent specification, if needed), `XProofs.v`
(lemmas), `XProps.v` (the property theorems, closed by `exact`, each with a
concrete Example and `Print Assumptions`).

Refuted statements: theorem name ends in `_refuted`, statement is the negation
of the property at a witness. Partial statements end in `_partial`.

## 4. Plan per property

The status column is updated as work proceeds; `MANIFEST.json` is authoritative
for theorem names.

| id | modelled | proof idea |
|----|----------|-----------|
| C01 | `angmod` (scalar) | floor-mod algebra, uniqueness of representative |
| C02 | `angular_distance` | reduce to min(c, 2pi-c) on canonical representative; triangle inequality by case split on turns |
| C03 | `is_within_circular_range` | compare `mod (v-lb)` with `mod (ub-lb)` |
| C04 | `rotate_data`, list map | uses C01, C05 |
| C05 | `data2rad`, `rad2data` | field |
| C06 | `significance_code` | case analysis |
| C07 | `compute_C_and_S`, `circ_r`, `circ_var`, `angular_var` | triangle inequality for weighted vectors |
| C08 | same | equality case: pairwise 1 - cos(ai-aj) = 0 |
| C09 | same | trig addition; permutation of sums |
| C10 | same, `np.repeat` | sums over repeat |
| C11 | `circ_mean`, `arctan2`, tolerance tests | polar form uniqueness |
| C12 | same | sum w cos(a - t) = R cos(m - t) |
| C13 | `circ_mean`, `circ_mean_and_r` | expected refuted: tolerances differ; agreement outside the band proved |
| C14 | `circ_mean_and_r_of_means` | block sums |
| C15 | spread measures | monotonicity of ln and sqrt |
| C16 | `circ_dist` | half-angle identities |
| C17 | `circ_dist` geodesic | expected refuted outside one turn; proved for |x-y| <= 2 pi |
| C18 | both deviation functions | chunk decomposition by strong induction |
| C19 | `_circ_median_mean_deviation` | argmin over list |
| C20 | `compute_hdi` | sorted window argument |
| C21 | `circ_range` | gaps of sorted list |
| C22 | mean confidence intervals | half-width in [0, pi/2], uses C03 |
| C23 | `circ_median_ci` indices | expected refuted (idx_ub = n); exact failure condition proved |
| C24 | `circ_kappa` | expected refuted (0.85 and r = 1); piecewise monotonicity proved |
| C25 | `circ_quantile` | linear interpolation of order statistics |
| C26 | `rayleigh_test` p-value | monotone composition |
| C27 | Monte Carlo p-value counters | counting |
| C28 | `V_test` | uses C12 |
| C29 | `one_sample_test` | uses C03, C22 |
| C30 | `omnibus_test` | expected refuted by a rotated two-point sample and by {0, pi} |
| C31 | `batschelet_test`, `binomial_test` counts | counting |
| C32 | `watson_williams_test`, `circ_anova` | vector triangle inequality |
| C33 | same | invariance of resultants |
| C34 | `kuiper_test` V | cyclic shift of order statistics |
| C35 | `watson_test` U2 | same |
| C36 | `rao_spacing_test` U | spacings multiset is rotation invariant |
| C37 | `circ_range_test` p-value | finite differences / B-spline recurrence |
| C38 | `concentration_test` | algebra, F survival function as oracle |
| C39 | `rao_homogeneity_test` | weighted Cauchy-Schwarz |
| C40 | `change_point_test` | triangle inequality; index convention refuted |
| C41 | `harrison_kanji_test` sums of squares | algebra + Cauchy-Schwarz |
| C42 | `watson_u2_test` | expected refuted on unsorted input; p-value 2 > 1 refuted |
| C43 | `wallraff_test` | mid-rank sums |
| C44 | `common_median_test` | algebra |
| C45 | `circ_corrcc` fl | Cauchy-Schwarz, pair sums |
| C46 | `circ_corrcc` js | same; strict mode refuted |
| C47 | `circ_corrcc` np | triangle inequality, roots of unity |
| C48 | `circ_corrcl` | projection inequality |
| C49 | `CircHAC.fit` loop | loop invariant, fuel = number of clusters |
| C50 | `CircHAC.fit` pair search | refuted for "center"; proved for non-negative metrics |
| C51 | `CircKMeans.fit` / `predict` | loop invariant |
| C52 | same | refuted: index error value |
| C53 | EM loops with abstract component density | invariant |
| C54 | `converged` flag across fits | refuted by a two-fit history |
| C55 | `MoCD.bic` | refuted; exact relation proved |
| C56 | `_regularise_params` | geometry of discs |
| C57-C59 | closed-form distributions | derivatives, integrals, inversion |
| C60 | `wrapnorm._pdf` | refuted: alternating sum |
| C61 | `wrapcauchy._cdf` | refuted with witness; monotone without clipping |
| C62 | `vonmises._entropy` | refuted with Bessel functions as oracles |
| C63 | gradients | derivatives of finite sums; vonmises refuted |
| C64 | `katojones._cdf` | refuted at rho = 0 |
| C65 | conversions | complex algebra |
| C66 | caches as state machines | invariant; refuted for inverse_batschelet |
| C67 | `wrapstable` series terms | limit; refuted |
| C68 | sine-skewed cdf small-kappa branch | refuted |
| C69 | argument guard | decision table |
| C70 | `Axial.__init__` | refuted for the median |
| C71 | `Circular.__init__` + bootstrap CI guard | roots-of-unity sum |
| C72 | `predict_density` default grid | algebra; refuted for full_cycle <> 360 |
| C78 | `circ_median_ci` (n > 15, n <= 15) | index arithmetic on the sorted sample; witness for n = 4 |
| C79 | `circ_dispersion`, `circ_skewness`, `circ_kurtosis` | polar form of the second moment |
| C80 | same | follows from C79 and the symmetries of the mean |
| C81 | HypModel | expand the sum of squares; zero sum of non-negative terms |
| C82 | HypModel, Wilcoxon as a function argument | offsets are unique representatives in [-pi, pi) |
| C83 | HypGofModel | Watson: finite triple product, limit, alternating tail; Kuiper: every series term negative at V = f(n) |
| C84 | HypGofModel | two-point witness [0, 4 pi] |
| C85 | HypGofModel, permutations as an argument | arc distance is unique and invariant |
| C86 | HypGofModel | repeat by integers; witness weight 3 - 1e-5 |
| C87 | HypMultiModel | polar form of the group sums; witness with small kappa |
| C88 | HypMulti2Model | weighted sums of squares; ln x <= x - 1 (Bartlett); injectivity of asin, arsinh |
| C89 | HypMultiModel | sums of roots of unity vanish; ranks shift cyclically under rotation |
| C90 | HypMultiModel | one lemma for the common coercion; witnesses |
| C91 | HypMulti2Model | covariance of a projection is rotation invariant; two-pair witness |
| C92 | HypMulti2Model | algebra; unbalanced six-point witness |
| C93 | UtilsModel `A1inv` | same three pieces as `circ_kappa`; witness across 0.85 |
| C94 | CorrModel `circ_corrcc_np` | ranks shift cyclically under rotation; witness with one whole turn |
| C95 | CorrModel `circ_corrcc` | case analysis |
| C96, C97 | ClusModel | simulation: the loops see equal distances |
| C98 | ClusModel | the loop assigns before it moves the centres; three-point witness |
| C99 | ClusModel `silhouette_score` | fold over labels; three-point witness |
| C100 | ClusModel `hac_predict` | argmin |
| C101 | EmModel | responsibilities are Bayes' rule |
| C102, C103 | EmModel | nLL as a sum of log mixture densities; one hand-computed pass on [0, pi] |
| C104 | EmModel | simulation: equal responsibilities in every pass |
| C105 | EmModel | the state is a fixed point of the pass |
| C106 | EmModel `regularise` | clipping is the identity inside the margins |
| C107 | DistModel | recurrence for the integrals of cos(n t) f(t); shift of the centre |
| C108 | DistModel `wc_rvs` | the Moebius map is the inverse of the cdf; constant near rho = 1 |
| C109 | DistModel `tri_fit_mle` | the score is non-increasing |
| C110 | KjModel `kj_cdf` | refuted by a truncated series that is negative next to 0 |
| C111 | KjModel `kj_ppf` | range from the final reduction; refuted by following the bracket |
| C112 | KjModel `kj_fit_moments` | polar form of the moments; shrinking rho keeps the constraint |
| C62, C63, C113 | VonModel | derivatives and integrals of exp(kappa cos t); Bessel functions from their integral representation (VonSpec `is_iv`, existence proved) |
| C114 | VonModel `von_cdf` | ratios of Bessel functions bound the series' remainder; it converges within 500 terms for kappa <= 460 |
| C115 | VonModel `von_ppf` | bracket invariant of the Newton and bisection steps, intermediate value theorem |
| C116 | VonModel `von_draw` | Best-Fisher envelope: proposal density times acceptance is proportional to pdf |
| C117 | VonModel `von_fit_mu` | the log-likelihood depends on mu through the resultant |
| C118 | VonModel `von_rvs_call` | refuted by evaluation |
| C60 | WnModel `wn_pdf` | lower bound by one Gaussian minus the series' tail (rho <= 0.94); negative value for rho = 1 - 1/2000 |
| C119 | WnModel `wn_cdf` | every contribution of a turn is monotone; more terms are kept further right |
| C120 | WnModel | orthogonality of cosines; polar form of the resultant |
| C121 | WnModel `wn_cdf_pdf` | Poisson summation: the sums of ndtr over turns and the integrated cosine series have equal Fourier coefficients, so equal limits (FourierProofs, GaussProofs, Wn2-Wn4Proofs); geometric decay of both remainders |
| C122 | WnModel `wn_ppf` | bracket invariant, intermediate value theorem; refuted for rho near one |
| C123 | WnModel `wn_rvs` | copies of [0, x], Poisson summation |
| C67 | WsModel `ws_mu` | evaluation of both branches of the phase next to alpha = 1 |
| C124, C125 | WsModel `ws_pdf`, `ws_order` | orthogonality; the run-time order reaches 1e-12; geometric bound of the moduli |
| C126, C127 | WsModel `ws_cdf`, `ws_ppf` | derivative of the series; bracket invariant, intermediate value theorem |
| C128 | WsModel `ws_moments` | inverse of the moment equations in polar form, branch of the phase by rounding |
| C129, C130 | WsModel | index by index; closed form of the geometric (Poisson kernel) sum |
| C131, C135 | JpModel `jp_pdf`, `ss_pdf` | Laplace's integral for the Legendre constant; evenness of the kernel; monotone powers |
| C68, C132 | JpModel `jp_cdf`, `ss_cdf` | derivative of the series; discrete orthogonality on 4096 points (psi = 1); alternating series for pi/4 in the refutation |
| C133, C136 | JpModel `jp_solve` | bracket invariant of the Newton steps and of the bisection |
| C134 | JpModel `jp_fit_moments` | minimum of a fold; I0 > 1 |
| C137, C138 | JpModel `as_cdf` | cell-by-cell bounds of the interpolation table; Lipschitz error of the trapezoidal rule |
| C139 | JpModel `ss_rvs` | induction over the stream of draws |
| C69, C140 | CcModel `call_pdf`, `sanitize_fit`, `moment_args` | case analysis of the dictionaries; counting of bound shapes |
| C141-C144 | CcModel `cc_mean` ... `cc_stats` | polar form of the first moment, second moment about it |
| C145 | CcModel `cc_median` | cardioid quantile of one half, two orientations |
| C146 | CcModel `cdf_integral` | invariant of the sorted pass |
| C147, C148 | FtModel `ft_pdf` | trapezoidal rule on a function with |f'| <= L f; for nu = 0 the aliasing error of exp(kappa cos t) is at most 4 pi exp(kappa cosh L - N L) for every L |
| C149, C150 | FtModel `ft_cdf`, `ft_ppf` | shape-preserving interpolation of a table of cumulative sums (`is_pchip`, existence proved); bracket of the Newton steps |
| C151, C153 | FtModel `ft_public_*`, `ft_nll` | case analysis |
| C152 | FtModel `ft_rvs` | the ratio of target and envelope is monotone in cos, its maximum is at a node |
| C66 | IbModel `get_cached`, `ib_run` | invariant over call sequences; I0 - I1 <= e^kappa/(e kappa) for the refutation |
| C154-C156 | IbModel `ib_tnu`, `ib_pdf` | monotone continuous warps and their inverses; substitution; integral of the kernel in closed form |
| C70, C157, C158 | BaseModel `axial` | doubling modulo the cycle is a function of the axis; evaluation on one-direction samples |
| C71, C159, C160 | BaseModel `prepare`, `circular` | resultant of equally spaced centres is 0; induction over the edges of the histogram |
| C161, C162, C164 | BaseModel `circular` | inversion of the constructor, equality of the inputs of every later step |
| C163, C165-C167 | BaseModel `circular`, `choose_ci` | inversion and evaluation |
| C168 | BaseModel `mean_ci` | p < 0.05 and n >= 25 bound n r^2 below, hence the argument of the arcsine |
| C169-C171 | BaseModel `ci_bootstrap`, `boot_v0` | closed form for rows at one direction; diagonal case |
| C172 | Desc2Model `circ_median_grouped` | cyclic partial sums, discrete crossing argument; evaluation for three bins |
| C173-C176 | RegModel `CCRegression` | polar form; fits as projections, nested and turned column spaces |
| C177-C179 | RegModel `cc_N`, `cc_T` | Schur complement of the normal equations; exact values on two designs for the refutations |
| C180 | RegModel `CCRegression`, `parse_formula` | inversion; splitting of strings |
| C181, C192 | RegModel `CLRegression` | inversion of the constructor; outcomes of the loop |
| C182, C183 | RegModel `cl_loop`, `cl_step` | fixed point of the loop; maximum of a resultant; RegClSpec `under`, `tan_link`, `log_link` |
| C184-C186 | RegModel `mean_step`, `kappa_step`, `mixed_step` | derivative library of IntProofs; normal equations with the ridge |
| C187-C189 | RegModel `safe_solve`, `standard_errors` | positive definite ridge matrices; two loops in step |
| C193 | RegModel `standard_errors` | moments of the von Mises score from the Bessel recurrence; Gram matrices as quadratic forms |
| C194, C195 | JsModel `envelope`, `jp_rvs`, `as_rvs` | concavity or slope of the log-density between grid angles; bounds of I0; a peak between two nodes for the refutation |
| C196-C201 | CwModel `cw_pdf`, `cw_cdf`, `cw_ppf`, `cw_rvs`, `cw_nll`, `cw_grad`, `cw_fit_*` | gamma by Bohr-Mollerup, constant by a recurrence and a squeeze; incomplete beta by t = sin^2(phi/2); gamma and digamma exist by Gauss's limit |
| C202-C208 | FcModel `car_fit`, `wc_fit`, `tri_fit`, `cu_rvs`, `tri_rvs`, `car_rvs` | concavity of the cardioid likelihood in (rho cos mu, rho sin mu); a chord bound along a Mobius path for the wrapped Cauchy; samplers as exact inverses |
| C209-C213 | VzModel `merge_dicts`, `default_config`, `circ_plot` (`scatter`, `rose_data`, `bars`, `arc`) | induction over paths of the configuration; inversion of a drawn plot into its parts; objects built by `circular` as witnesses |
| C214 | Desc2Model `npde`, `compute_smooth_params`; KdeModel | C1 gluing of the kernel's primitive at the bandwidth, split of the turn at the antipode; evaluation at -90 degrees and for r = 1/16, n = 32 |
| C215 | VzModel `density_curve`, `circ_plot` | inversion of a drawn plot, the merged `density` dictionary key by key |
| C216 | MxModel `predict_density`; EmModel fits | sums of densities with positive shares; the component densities of C113 and C57; one observation at 0 for the wrapped normal |
| C217 | MxModel `em_init`, `mocd_init` | the checks one by one; the special case for flat-topped families is unreachable |
| C218 | MxModel `mocd_init`, `array_to_params`; EmModel `mocd_fit` | every component is the result of the first method that works: invariant of the iteration |
| C219 | ModesModel `circ_modes`, `nanargmin`, `expand_w`, `reported` | invariant of the argmin over a list of numbers and NaN; the BIC is a number or NaN by the cases of C53/C102; a vanishing resultant puts the one-component fit in the NaN case |
| C220 | ModesModel `circ_modes`, `circular_modes` | C104 applied to each candidate; grouping expands to the same list |
| C221 | SumModel `beta_table`, `conc_table`, `ratio`, `tail_p` | rows over the standard errors of C187; the p-value needs only a symmetric, increasing distribution function |
| C222 | SumModel `cc_table`, `cc_label`, `cc_names` | the labels parse back to predictor and harmonic; the row sums are the polynomials of C173 |
| C223 | LevModel `median_ci_level`, `median_ci_full` | the order statistics enclose m exactly when the number of observations below m is in a range; the 2^n choices of sides are counted by the kernel |
| C224 | RepModel `repr`, `summary` | inversion of the constructor; the angles depend on the readings only through reading / cycle |
| C225 | RepModel `repr`; BaseModel `choose_ci` | case analysis on the method; C168 for 25 or more observations |
| C226 | ClockModel `time2float`; `float` an argument | splitting by induction on the string |
| C227 | SigModel `significance` | case analysis; C06 |
| C228 | DupModel `cw_moment_r`; gamma characterised by Bohr and Mollerup | uniqueness of gamma, Legendre's duplication formula, gamma(1/2) = sqrt pi, C196 |
| C229 | RngModel `init_rng`, `scipy_rng`, `run` | induction over histories of calls; numpy as an argument |
| C190, C191 | RegModel `cl_aic`, `cl_bic`, `cl_predict` | lengths kept by the loop |

## 5. Findings

Statements that are false of the code as written. Each has a `_refuted` theorem
with a concrete witness.

* **C13** `circ_mean` calls a mean undefined for r <= 1e-8, `circ_mean_and_r` for
  r <= 1e-12. Between the two thresholds they disagree.
* **C14** one group without a mean direction makes `circ_mean_and_r_of_means`
  return NaN although the pooled mean exists.
* **C17** `circ_dist(metric="geodesic")` is wrong (even negative) when the two
  angles differ by more than one turn.
* **C19, C76** the same formula makes the deviation median depend on whole turns:
  `[0, pi/2, 5 pi]` has median pi, `[0, pi/2, pi]` has median pi/2.
* **C23** `circ_median_ci` tests `idx_ub > n` where `idx_ub >= n` is needed. A
  17-point sample raises IndexError at the usual 95% level.
* **C24** `circ_kappa` drops at r = 0.85 and returns 1e-16 at r = 1.
* **C73** the bin correction in `circ_var` can give a negative variance and NaN
  standard deviations.
* **C74** a grouped sample with one occupied bin has "median" `alpha[0]`, the first
  bin, occupied or not.
* **C75** the early exit for r close to 1 (relative tolerance 1e-5) returns the
  first observation, so the median of a concentrated sample depends on the order.
* **C78** for n <= 15 `circ_median_ci` takes order statistics of the angles cut at
  0 and never swaps them; for `[2pi-a, a, 2pi-2a, 2a]`, a = pi/6, the interval is
  the arc that does not contain the median 0.
* **C28** `V_test` uses `n = int(sum(w))`, so a fractional total weight is
  truncated silently (weight 1.5 at the hypothesised angle gives V = 1, not 1.5).
  `rayleigh_test` raises ValueError in the same situation.
* **C30** `omnibus_test` scans half circles that start in [0, pi) only and takes
  one side of each line. `[3pi/4, 5pi/4]` gives m = 1 and pval = 0; the same two
  points turned by half a circle give m = 0 and pval = 1. Opposite points `[0, pi]`
  give pval = 0, the strongest possible rejection, for the most even sample.
* **C83** the series p-value of `kuiper_test` (n_simulation = 1) is negative for
  every sample of two or more equal angles, the most extreme samples there are.
* **C84** `kuiper_test`, `watson_test` and `rao_spacing_test` do not wrap their input.
  `[0, 4 pi]` has twice the V and seven times the U2 of `[0, 0]`, and a Rao statistic
  of 540 degrees (the largest possible value for two points is 180).
* **C86** `rao_spacing_test` accepts weights within `isclose` of an integer and then
  truncates: weight 2.99999 counts as 2.
* **C38** `concentration_test` uses `f_stat >= 1` for the direction, so at F = 1 with
  samples of different sizes the two orders use different tails (p < 1 versus p = 1).
* **C40** `change_point_test` reports 0-based array positions: the split that attains
  rmax (tmax) is after k_r + 1 (k_t + 1) observations.
* **C42** `watson_u2_test` needs sorted samples: unsorted input, or two different pooled
  values within the relative tolerance 1e-5, raise ValueError from `np.repeat`.
  Identical samples get the p-value 2.
* **C87** the small-sample factor of the likelihood ratio statistic turns negative for
  weak concentration; the statistic of two single observations can be negative.
* **C88** `equal_kappa_test` weights groups by n - 4 (n - 3) without a check: groups of
  two observations can give a negative statistic; a group with r > sqrt(2/3) in the
  small regime gives NaN.
* **C89** ties: `wheeler_watson_test([0, 0], [1])` has W = 8, with the samples swapped 2.
* **C90** `wallraff_test` takes distances from the unexpanded angles but counts weights,
  so U can be negative for grouped data. A weight of 100000.5 passes the integer check
  (relative tolerance) and counts as 100000.
* **C91** `H_polar` compares tangents of mean directions: it depends on the choice of the
  zero direction and cannot tell a sample from the opposite one.
* **C92** without interaction `harrison_kanji_test` gives the residual (p-1)(q-1) degrees
  of freedom whatever the number of replicates. In an unbalanced design the
  interaction chi-square can be negative.
* **C46** `strict=True` never raises: `_coerce_angles` asks for the attribute
  `mean_pval`, but `Circular` keeps the p-value in a local variable and in
  `mean_test_result`.
* **C48** for angles on two opposite directions `circ_corrcl` returns NaN when the line
  is an axis and raises ValueError after a rotation by 45 degrees.
* **C94** the rank correlation ranks raw values: adding a whole turn to one angle turns
  r = 1 into r = -1.
* **C49** `CircHAC` with n_init_clusters < n_clusters < n starts from n_init_clusters
  clusters and never splits, so fewer clusters than asked for result. With n <= n_clusters
  the centres are the raw angles, not brought into [0, 2 pi).
* **C50** `CircHAC(metric="center")` compares signed distances: of 0, 1, 3 it merges
  0 and 3 first, because 0 - 3 = -3 is the smallest value.
* **C51** a K-means centre whose points balance out becomes NaN. `argmin` prefers NaN, so
  from then on this centre takes every observation and stays NaN.
* **C52** `CircKMeans.fit` with fewer observations than clusters keeps n centres, and
  `predict` then raises IndexError for every input.
* **C98** `CircKMeans.labels_` belongs to the centres before the last move; `predict` on
  the training data may differ from `labels_`.
* **C99** `CircHAC.silhouette_score` averages over the whole cluster including the point
  itself and gives 1 (not 0) to a singleton; one cluster gives NaN.
* **C53** a starting group of MovM whose resultant vanishes (for instance [0, pi] with
  one component) has mean NaN; every later value is NaN, all labels are 0, nLL is empty.
* **C54** `converged` and `converged_iters` are set in `fit` but never reset, so a fit that
  does not converge reports the outcome of an earlier one.
* **C55** `MoCD.bic` passes the stored radians through the unit conversion again; for data
  in degrees it evaluates the densities at wrong angles.
* **C72** the default grid of `predict_density` is made in degrees and converted with
  `full_cycle`; for full_cycle = 24 it covers 15 turns instead of one.
* **C103** `MovM.fit` stores nLL before the update of the same iteration; `nLL[-1]` is not
  the value that `compute_BIC` uses.
* **C105** identical angles are fitted by MovM with kappa = 1e-3, next to uniform, because
  `circ_kappa(1)` is 1e-16 (see C24).
* **C106** `_regularise_params` changes admissible tuples with (1 - gamma)^2 below the
  margin 5e-4.
* **C58, C61, C59** `wrapcauchy.cdf` returns 1 for every x with 2 pi - x <= 6e-5 (an
  `isclose` with default tolerances), whatever the density there. For mu = 0, rho = 1 - 1e-5
  half of the probability below the mean lies in that window and cdf(ppf(0.75)) = 1. For
  mu = pi/2, rho = 1 - 1e-12 a difference within 1e-12 below a whole turn is not turned
  back: cdf(pi) > 1/2 but cdf(3 pi/2) = 0.
* **C108** `wrapcauchy.rvs` treats rho >= 1 - 1e-5 as 1 (`isclose` with default rtol) and
  returns mu for every draw.
* **C57** `katojones._argcheck` lets the constraint be missed by 1e-12; the pdf is then
  clipped at 0 and integrates to more than 1.
* **C57, C107** `katojones._pdf` floors its denominator at 1e-15. For rho above about 1 - 3e-8 the floor
  cuts the peak off: with documented parameters mu = pi, gamma = 1/2, rho = 1 - 1e-9, lam = 0 the pdf
  integrates to less than 1, while `trig_moment(0)` returns 1. (`C57_katojones_floor_refuted`,
  `C107_katojones_refuted`)
* **C64** `katojones.cdf` with rho <= 1e-12 returns x/(2 pi) although the density is then a
  cardioid with gamma up to 1/2: off by 1/(2 pi).
* **C110, C111** the truncated cdf series is reduced modulo 1. For mu = pi, gamma = 3/4,
  rho = 1/2, lam = 0 it is slightly negative near 0 and becomes 1 - 1e-13; the cdf is not
  monotone and the bracketing of ppf goes to the wrong side: F(ppf(1e-8)) < 1e-11.
* **C112** `katojones` moment fit on balanced data returns mu = NaN.
* **C62** `vonmises.entropy` returns -ln I0 + kappa I1/I0, which is ln(2 pi) minus the
  differential entropy: the sign of both terms is wrong and ln(2 pi) is missing.
* **C63** the gradient given to the optimiser by `vonmises.fit(method="mle")` has the wrong
  sign in its mu component.
* **C114, C115** `vonmises.cdf` has the same `isclose` window next to 2 pi as wrapcauchy;
  its ppf stops there: for kappa = 1, mu = 0, q = 1 - 1e-7 the quantile found has
  probability below q - 5e-7.
* **C118** `vonmises.rvs(mu, kappa)` raises ValueError and `vonmises.rvs(mu, kappa, size=n)`
  TypeError, because positional arguments are bound to other names; so does a frozen
  distribution made with positional parameters. kappa = -1 is accepted and draws uniformly.
* **C60** `wrapnorm.pdf` sums 29 cosine terms whatever rho: it is negative opposite the mean
  direction for rho = 1 - 1/2000 (it is positive for every rho <= 0.94).
* **C121** `wrapnorm.cdf` has the `isclose` window next to 2 pi. Outside it cdf (sums over
  turns) and pdf (cosine series) agree to 2e-12 for rho <= 0.96; for rho near 1 they drift
  apart because only pdf is truncated.
* **C67** `wrapstable` at alpha = 1 adds `(2/pi) beta gamma p ln(gamma p)` to the phase; the
  limit of the general branch has the opposite sign. With delta = 0, beta = 1/2, gamma = 2 the
  first sine moment is above 1/80 at alpha = 1 and below 0 at alpha = 1 + 2e-10. Also (by
  reading, not formalised): `_wrapstable_sample_linear` adds back the shift between the two
  parametrisations that it subtracted, so the draws are not centred like pdf for beta <> 0.
* **C125, C126** `wrapstable` stops after 20001 terms: for alpha = 2, gamma = 1e-9, delta = pi
  pdf(0) < -1/10, and since negative raw values get + 1 the cdf is at least 3/4 right of 0 and
  1/2 at pi.
* **C68** `jonespewsey_sineskewed.cdf` for kappa < 1e-3 returns the probability of the arc from
  xi to x instead of from 0 to x: with kappa = 0, lmbd = 0, xi = pi, cdf(pi/2) = 3/4 and
  cdf(3 pi/2) = 1/4.
* **C132** `jonespewsey.cdf` keeps 256 cosine terms with coefficients from 4096 points, clipped
  to [-1, 1]: for kappa = 14, psi = -1, mu = pi it reaches 1 at pi + 3/320 and is below 1 at
  3 pi/2.
* **C134** `jonespewsey.fit(method="moments")` returns psi = 0 but reports in `info["loglik"]`
  the best log-likelihood over a grid of psi.
* **C136** `jonespewsey_sineskewed.ppf` for kappa < 1e-3 returns 2 pi q whatever xi and lmbd.
* **C138** `jonespewsey_asym.cdf` interpolates 4096 points: for kappa = 14, psi = -1, nu = 0 an
  arc of probability above 1/9 gets less than 1/400.
* **C139** `jonespewsey_sineskewed.rvs` raises ValueError for |lmbd| = 1, which `_argcheck`
  admits and pdf, cdf and ppf accept.
* **C69** a fourth positional argument of `cardioid.pdf` is bound to scipy's `loc` unchecked and
  shifts the density: pdf(0, 0, 1/4, pi) is 0 instead of 3/(4 pi). A keyword loc within 1e-8 of
  0 is silently dropped.
* **C145** `median()` is the quantile of one half counted from the angle 0. For cardioid(0, 1/4)
  it is pi, the antimode, and the same after rotating the distribution by pi.
* **C149** `vonmises_flattopped.cdf` adds one only when H(x) < H(0), with H read off the table.
  For kappa = 1000, mu = 3.5 the table is constant in the tails and cdf falls from above 1/2 to 0
  before the end of the turn. In floating point the table reaches 1.0 already for moderate kappa
  (about 50), which the exact-real model does not show.
* **C151** `vonmises_flattopped.pdf` clips kappa to [0, 1000] before the check, cdf and ppf do not:
  kappa = -5 and 5000 give a density but NaN probabilities. `inverse_batschelet` does the opposite.
* **C66** `inverse_batschelet.cdf` and `.ppf` overwrite the cached normalising constant with one
  rescaled to the trapezoidal mass of their table. For kappa = 400, lambda = 1 the table misses the
  cusp, and pdf after a cdf call is at most 10/19 of pdf before it (numerically about 1/78).
* **C156** `inverse_batschelet` cuts kappa at 700 without notice.
* **C70** `Axial` halves the mean and its interval but not the median and its interval: three
  readings of 120 degrees have mean 120 and median 240 degrees.
* **C71** `Circular` with bins or weights, 8 <= n < 25 and p < 0.05 always raises ValueError: it
  picks the bootstrap, which ignores the weights, and equally spaced centres have r = 0.
* **C158** `Axial(..., full_cycle=c)` doubles modulo the cycle of the unit (default 360), not c.
* **C159** `Circular(data, bins=k)` drops observations outside [0, one cycle] although `data2rad`
  does not reduce: [-1, 1] radian has n = 1.
* **C163** n is the total weight cut to an integer while r uses the weights: R is too small for
  fractional totals, and `rayleigh_test` on the same sample raises.
* **C164** `bin_size` is the smallest difference of the centres in the order given; unordered
  centres make it negative and the standard deviation NaN.
* **C165** `kwargs_mean_ci["ci"]` is never used, and `pop("method")` changes the caller's
  dictionary, so the next object built with it silently uses the bootstrap.
* **C166** several medians (return_average=False) reach `if np.isnan(median)` or the interval and
  raise ValueError.
* **C167** `Circular(data)` raises IndexError when the order statistics of the median interval run
  past the end of the sample.
* **C169, C171** in `_circ_mean_ci_bootstrap` the 1 of the textbook formula is inside the
  denominator of the root, so the matrix is not the square root of the covariance unless cos and
  sin are uncorrelated; the interval depends on the zero direction.
* **C172** for an odd number of bins half of the wrong bin is subtracted (`np.roll(w, 2)`): counts
  1, 1, 0 at 0, 120, 240 degrees have median 180 degrees.
* **C178** `CCRegression` tests the cosine and the sine part separately and reports significance if
  either is; turning all responses by 45 degrees changes the verdict.
* **C179** the factor of the statistic is `n - (2 order + 1)` whatever the number of predictors;
  the number of coefficients is `1 + 2 p order`.
* **C182** a `CLRegression` stopped by max_iter reports mu, kappa and log_likelihood of the
  coefficients before the last update: mu is not the best one for the reported beta.
* **C183** the log-likelihoods omit - n ln(2 pi).
* **C186** the mixed model updates beta from `sin(theta - mu)` without the tangent link and without
  adding the current beta: at a stationary beta = 1 the next beta is below 1/2.
* **C189** the ridge 1e-8 does not depend on the units of the predictors: with a predictor of size
  1e-5 the coefficient is less than half of what it should be.
* **C190** AIC and BIC count p parameters for the mean model (p + 2 fitted), p + 1 for the
  concentration model (p + 2) and 2 p + 1 for the mixed model (2 p + 2).
* **C191** `predict` of the concentration model adds the tangent link of the unused beta0; a scalar
  raises IndexError.
* **C192** max_iter = 0 raises UnboundLocalError; a constant response gives NaN estimates without
  notice.
* **C193** the standard errors of beta invert the information of beta alone although mu is estimated
  with it: with predictors 0 and 1 less than half of the variance is reported.  `se_kappa` of the
  concentration and mixed models treats each concentration as estimated from n observations of its
  own.
* **C195** the envelope of `jonespewsey_asym.rvs` is fitted on 2048 angles with a margin of 2 per
  cent: for kappa = 14, psi = -1, nu = 1/650 the peak of the density lies between two of them, the
  envelope there is below a quarter of the density and the draws under-represent the peak.  In
  floating point `vonmises.pdf` also overflows for envelope concentrations above 709 (not modelled).
* **C197** `cartwright.cdf` is 1 on the last 6.3e-5 of the turn: `np.isclose(wrapped, 2 pi)` uses the
  default relative tolerance, as in `wrapcauchy.cdf` (C58).
* **C200** an observation exactly opposite to mu has density 0, but `cartwright.fit` gives it a finite
  log-likelihood: 1 + cos is floored at 1e-15.  The reported `loglik` is then that of no density.
* **C204** the denominator of the wrapped Cauchy density is floored at 1e-15 inside `wrapcauchy.fit`
  (line 3188) but not in the density: for a sample at one angle the moment fit has rho = 1 - 1e-12 and
  the reported `loglik` is below the log-likelihood of the returned parameters.
* **C208** `triangular.fit` only compares `method` with "moments": every other name, typos and
  "Moments" included, silently runs the maximum-likelihood fit (line 1218; cardioid and wrapcauchy
  lower-case the name and raise ValueError).  `triangular.rvs` does not check rho (line 1150).
* **C209** `{"spine": True}` (documented: whether to show the polar spine, default False) hides the
  spine: `_merge_dicts` turns True into the default value, which is False (line 28).
* **C210** the default plot of every grouped object raises: without fitted mixtures `mixture_opt` does
  not exist, with them line 360 reads `config["rlim_max"]`, a key that is in no default and not
  documented; and `median_lb` is not set for grouped data (base.py:290) but read at line 414.  The
  latter also raises for ungrouped data whose median is NaN (e.g. method "none").
* **C211** the rose diagram bins over the range (0, 2 pi), and the constructor does not reduce angles:
  observations given as -90 degrees or 370 degrees are in no bar.
* **C213** an interval of one point is drawn as the whole circle (`lb < ub` fails and 2 pi is added):
  three equal observations have the median interval (m, m).

* **C214** `nonparametric_density_estimation` takes the distance of x and an observation to be
  min(|x - a|, 2 pi - |x - a|), which is negative for angles more than a turn apart. With an observation
  at -90 degrees (ungrouped data are not reduced modulo a turn) the curve is raised where the kernel is 0.
  (`C214_refuted`)
* **C214** `compute_smooth_params` returns bandwidths above pi for dispersed samples (r = 1/16, n = 32);
  the estimated density then integrates to less than 1. (`C214_bandwidth_refuted`)
* **C216** `MovM.predict_density` returns only NaN after a fit that left NaN (see C53), without an error.
  (`C216_movm_refuted`)
* **C216** `MoCD(wrapnorm)` predicts negative densities: for concentrated data the moment fit gives a rho close
  to 1, where the series of the pdf, cut after 29 terms, is negative opposite the mean. (`C216_mocd_refuted`)
* **C216** `MovM.predict_density` has no check for a missing fit and raises a TypeError from `zip(None, ...)`;
  `MoKJ` and `MoCD` raise a ValueError.
* **C217** the branch of `MoCD.__init__` that picks "mle" for vonmises_flattopped and inverse_batschelet
  cannot be reached: both were refused before.
* **C219** with `n_clusters_max > 1` a sample whose resultant vanishes has BIC NaN for one component, and NaN is
  skipped: a uniform sample is reported as multimodal, or the line "Unimodal?" is missing. (`C219_refuted`, `C219_balanced`)
* **C219** `n_clusters_max` above the number of observations raises ValueError from the constructor, after all the
  other attributes were computed; weights of a float type (allowed otherwise) raise TypeError in np.repeat.
  (`C219_room`, `C219_float_weights`)
* **C221** `CLRegression.summary` takes the absolute value of estimate / standard error in the table of beta but not in
  that of alpha and gamma: a negative beta is printed with a positive t value. (`C221_sign_refuted`)
* **C222** `CCRegression.summary` counts the predictors from 1 while `feature_names` counts them from 0 (or holds the
  names of the formula): the row "cos(x1,k=1)" holds the coefficients of the predictor named x0. (`C222_names_refuted`)
* **C223** for n = 15 `circ_median_ci` takes the third and the thirteenth order statistic but reports the level 0.965
  of the fourth and the twelfth; the interval covers with probability 0.9926. (`C223_fifteen_refuted`)
* **C223** for n <= 15 the interval is never across the direction 0: whatever the sample, it does not contain 0 unless
  0 is an observation, so a law with median 0 is covered with probability 0. (`C223_cut_refuted`)
* **C224** printing a grouped object with several medians and `return_average=False` raises TypeError: the medians are
  an array and are formatted with `.02f`. (`C224_raises_refuted`)
* **C225** with `kwargs_mean_ci` given the summary names the method "bootstrap" even when p >= 0.05 and no interval was
  computed. (`C225_refuted`)
* **C227** `TestResult.significance` returns the empty code for a NaN p-value: a test that could not be computed reads as
  not significant. (`C227_nan_refuted`)
* **C122** `wrapnorm.ppf` inverts the wrapped normal law, but `wrapnorm.pdf` keeps 29 cosine terms: for rho = 1 - 1e-10
  and mu = pi the 0.9 quantile lies within 0.002 of pi, where pdf has integrated to at most 0.6. (`C122_refuted`)
* **C150** `vonmises_flattopped.ppf` answers 2 pi, outside [0, 2 pi), for every level within 1e-12 of one. (`C150_refuted`)
* **C229** Seven distributions (circularuniform, triangular, cardioid, cartwright, wrapnorm, wrapcauchy, vonmises) keep a
  Generator after their first call of `rvs` without `random_state`: from then on `np.random.seed` has no effect on them.
  The other seven re-read numpy's global state at every call. (`C229_reseed_refuted`, `C229_reseed_partial`)
