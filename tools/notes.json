{
 "C13": {
  "note": "Refuted as stated: if one of >=3 variables is constant the code returns 0 although the others may share information (C13_total_correlation_refuted). Without a constant variable the value is characterised for every input: total correlation plus the mean log of what the 64-bit products of marginal counts lose (C13_mi_value); it is the total correlation exactly when no product reaches 2^64 (C13_exact_iff), never below it (C13_never_below)."
 },
 "C14": {
  "note": "Refuted: products of marginal counts are taken in uint64 and wrap to 0 (64 two-valued variables), giving -inf/nan. C14_mi_finite_iff characterises the finite results for every input: one variable is constant, or no product of marginal counts at an occurring sample is 0 modulo 2^64."
 },
 "C17": {
  "note": "Fully characterised for every input (C17_cmi_value: last documented form plus the mean log factor lost to 64-bit wrap-around, NonFinite when a product is 0 mod 2^64, 0 for constant data). The first documented form is returned iff there are two variables or the condition is constant (C17_first_form_iff); it is refuted for >=3 variables (differs by (k-2) H(Z))."
 },
 "C15": {
  "note": "Holds when all variables are 2-D; mixing 1-D and 2-D arrays raises TypeError (proved)."
 },
 "C26": {
  "note": "Consistent for entropy, MI, CMI, TE; Miller-Madow CMI rejects a multi-dimensional condition, unlike the discrete one (refuted theorem)."
 },
 "C08": {
  "note": "Holds for every measure, approach, input and base except two one-dimensional variables in discrete, Miller-Madow or ordinal MI with a base in (0,1), where the result is clipped to 0 (C08_mi_base_below_one, C08_mi_rescales_refuted). The C08_every_* theorems are about whole calls: same exception, both not finite, or the value rescaled; C08_kernel, C08_metric and C08_renyi_tsallis add the measures of numeric data; a Tsallis entropy of order other than 1 has no unit (C08_tsallis_has_no_unit)."
 },
 "C09": {
  "note": "The claim as stated is false: base 0 and 1, and negative bases in estimators that divide by log(base), are not rejected with ValueError (refuted theorems). What holds for every measure, input and unusable base is that no number other than 0 is returned (C09_every_*, C09_kernel, C09_metric, C09_renyi_tsallis). A negative base is refused with ValueError whenever the same call in nats gives a number, for the discrete, shrinkage, Bayesian and ordinal estimators (except when that number is 0 because no logarithm is taken) and for every kernel estimator (C09_negative_base_*). Tsallis measures of order other than 1 ignore the base (refuted theorem)."
 },
 "C54": {
  "note": "The logged claim is false: refuted by a concrete pair of series."
 },
 "C44": {
  "note": "Refuted: the mean of the shrinkage local values is strictly below the shrinkage entropy unless the intensity is 1 (general theorem C44_shrink_local_mean_below), and shrinkage MI combines those means (C44_shrink_mi_value gives its exact value for any number of variables)."
 },
 "C45": {
  "note": "Distribution and bounds proved for K = observed number of values; an explicit K sums to 1 only when equal to it; 'Min-Max' in any other case than lower is rejected (refuted theorem)."
 },
 "C56": {
  "note": "Proved for eight approaches (ANSB in C49); Grassberger is negative on every constant array of even length (refuted theorem), non-negative when all counts are odd."
 },
 "C33": {
  "note": "Proved for MI/CMI classes that read their data and for TE: the i-th test value is the measure of the i-th draw (permutation / bootstrap of the first variable or of the source-history rows). Refuted for every CTE class and for ordinal MI/CMI: the surrogates ignore the draw, all test values equal the observed value, p = 0."
 },
 "C34": {
  "note": "Proved for all uninterrupted histories of calls, for classes whose surrogate evaluations do not raise (discrete MI and TE are such). Refuted when the user interrupts a test: shuffled data / randomisation flags stay in place."
 },
 "C35": {
  "note": "Includes that n_tests = 1 passes validation but always raises ValueError."
 },
 "C39": {
  "note": "Proved for all histories without explicit calculate() calls, all classes, all interruptions; explicit calculate() recomputes and is unstable for classes that draw noise (refuted theorem)."
 },
 "C32": {
  "note": "Bounds, general path and local means proved; fast-path agreement proved for windows without ties. Refuted with ties: the dim-2 fast path ignores stable=True; the dim-3 fast path labels the two cyclic patterns the wrong way round; local values for dimension 1 raise TypeError."
 },
 "C31": {
  "note": "Monotone invariance for stable=True and all data, and for the default sort when windows have no ties (the default sort makes no promise on ties)."
 },
 "C27": {
  "note": "The value is proved for every pair of nonempty samples (C27_kld_every_pair and the Miller-Madow and Bayes versions); sign and zero claims for p inside the support of q. Refuted: outside the common support the code skips terms and returns negative values (minus the entropy of p for disjoint supports); 2-D arrays are numbered separately; Miller-Madow is negative for equal distributions with different sample sizes."
 },
 "C28": {
  "note": "Discrete, shrink and Bayes approaches; any number of arrays. Refuted for 2-D arrays (numbered separately)."
 },
 "C40": {
  "note": "All measures, approach names, letter cases. Refuted: the entropy does not know 'ksg' and the other measures do not know the entropy's short names; estimator(x, measure='mi') with a single array looks the approach up case-sensitively and raises KeyError."
 },
 "C41": {
  "note": "Same class, data and every parameter for all measures, given no TE-only parameter is passed to entropy/MI. Refuted: estimator() swallows step_size etc. for entropy and MI (different result), and turns a one-array (C)MI into an entropy, dropping the condition."
 },
 "C37": {
  "note": "All histories of set/set_logarithmic_unit/reset calls; values are ints, bools, floats, strings, None and opaque objects. Only types are checked: non-positive or boolean bases and test counts are accepted."
 },
 "C38": {
  "note": "Refuted as documented: default bases are captured at import time. Proved for all histories: MI/CMI and TE/CTE use the base configured when a measure of their package was first requested, entropies of arrays always use e, explicit bases are always honoured."
 },
 "C42": {
  "note": "Invariant, acceptance, and equality of entropies from data and from tallies (all approaches but Grassberger). Refuted: Grassberger raises TypeError on objects built from counts, as do local values; from_probabilities always raises AttributeError; zero counts give nan and repeated values are counted twice; a second DiscreteData argument is ignored."
 },
 "C51": {
  "note": "Non-constant columns: proved in full. C51_constant_refuted: a constant column is 0/0 (nan with a warning) rather than any value in [0,1]."
 },
 "C53": {
  "note": "Proved for >=2 query points; a single query point fails: one sample ends in TypeError, and squeezing breaks chunk concatenation (refuted theorems)."
 },
 "C61": {
  "note": "The stated identity for 1-D variables and condition, and the stated failure for multi-dimensional ones (C61_multidim_*_refuted refute the unrestricted identity).",
  "status": "proved"
 },
 "C64": {
  "note": "All parts of the statement, including the stated negativity (C64_kld_negative_refuted refutes non-negativity).",
  "status": "proved"
 },
 "C65": {
  "note": "All parts of the statement, including the stated negativity (C65_negative_refuted).",
  "status": "proved"
 },
 "C66": {
  "note": "All parts of the statement, including the stated gap (C66_workers_gaussian_refuted refutes that workers are always validated).",
  "status": "proved"
 },
 "C70": {
  "note": "k >= N is accepted and the result ignores the data (refuted); k = 0 is an IndexError, a non-integer k a TypeError, the other invalid values ValueErrors - for MI, CMI, TE and CTE alike, on any data, offset, embedding and noise (C70_every_measure)."
 },
 "C72": {
  "note": "refuted parts: with three or more variables a constant condition does not give the mutual information (smaller by (m-2) psi(N)); the noise loop adds N draws to every value of the condition."
 },
 "C73": {
  "note": "refuted part: k >= number of embedded samples is accepted."
 },
 "C75": {
  "note": "proved for data without k coinciding samples; samples with k coinciding others contribute 0, so the scaling law fails for them (refuted)."
 },
 "C76": {
  "note": "k >= N is accepted and gives a non-finite result (refuted); everything else is rejected."
 },
 "C77": {
  "note": "Value, existence of the distances and dimension check proved. Refuted: for unequal sizes the sum over N samples is divided by M; k=1 is an IndexError; the self-divergence is not 0 (at most 0)."
 },
 "C78": {
  "note": "Values for single and joint variables, order 1, Tsallis from Renyi, scaling proved (positive neighbour distances)."
 },
 "C79": {
  "note": "Rejections and cross values proved. Refuted: order k+1 returns 0 for any data; orders in (k+1,k+2) give nan; with coinciding samples scaling fails; cross-entropy with k=1 is an IndexError."
 },
 "C80": {
  "note": "Values, symmetry, distances only, scaling, noise, offset, rejection and order one proved. Refuted: non-negativity (unbounded below), and dropping out of a constant condition; conditional values for three or more variables shift under rescaling.",
  "status": "proved"
 },
 "C81": {
  "note": "TE and CTE equal CMI of embedded series; prop_time, noise, rejection, order one proved."
 },
 "C82": {
  "note": "Integrals are exact (quad trusted to integrate exactly), digamma/trigamma are the sums of their series, log-gamma is any function with its recurrence; existence of such functions is proved (nsb_lib_ex). Finding: constant data gives nan although its entropy is 0; the code raises each value's factor to the power n_i, which the specification reproduces."
 },
 "C83": {
  "note": "Stated with 'combination', which includes the undefined case; NSB under the library assumptions of C82."
 },
 "C84": {
  "note": "Dedicated discrete MI and CMI of any number of variables and samples (also where 64-bit products wrap), MI of 2-D variables, TE/CTE of 1-D and 2-D series (n below 2^32), Miller-Madow MI/CMI/TE/CTE, and the entropy combinations of eight approaches. Order invariance stated for MI and CMI (TE depends on time order)."
 },
 "C85": {
  "note": "Discrete approach, all histories and step sizes in the stated orderings."
 },
 "C86": {
  "note": "All parts of the statement, including the stated failure of ansb (C86_ansb_consistent_refuted).",
  "status": "proved"
 },
 "C87": {
  "note": "Model MGauss.v of kde.py 104-162 and of scipy's gaussian_kde (covariance, Cholesky, triangular solve). numpy.linalg.eig is a parameter assumed to return eigenpairs of the given covariance (for degenerate data: perpendicular unit ones). C87_degenerate and C87_no_variance cover data with weak principal axes. The failure for small units is part of the statement and is proved as C87_small_units_refuted.",
  "status": "proved"
 },
 "C88": {
  "note": "Same model as C87; C88_cmi for one-dimensional variables (for others the code picks single columns, see C61)."
 },
 "C89": {
  "note": "Everything in the statement is proved. The two _refuted theorems concern claims outside it: conditional TE objects (source not randomised, the effective value is always 0) and the docstring's 'otherwise returns the stored value' (every call draws again).",
  "status": "proved"
 },
 "C90": {
  "note": "Everything in the statement is proved; the _refuted theorems show the last sentence (conditional TE tests compare the observed value with itself), against what the documentation promises.",
  "status": "proved"
 },
 "C91": {
  "note": "Refuted for a DiscreteData object followed by other arguments: they are ignored, so a cross-entropy of two DiscreteData objects is the entropy of the first."
 },
 "C92": {
  "note": "Discrete conditional TE with a 1-D condition in full; with a 2-D condition (reduced to codes first) for the public defaults of prop_time/offset; ordinal TE is modelled after the parent's shift."
 },
 "C94": {
  "note": "Proved; renyi units need distinct embedded destination pasts (otherwise C79_scaling_refuted applies)."
 },
 "C95": {
  "note": "Increasing maps: unconditional for stable=True (MI/CMI/TE/CTE), tie-free for all measures. Monotone (either direction) and time reversal: value theorems under the C32/C58 validity conditions and no ties."
 },
 "C96": {
  "note": "Constructors and estimator objects are a parameter; the end-to-end theorems use the count-based environment. A sequence that is neither list nor ndarray is not distinguished from a list there."
 },
 "C97": {
  "note": "Method resolution orders are transcribed by hand. Two negative theorems (_refuted) record where the code takes too few (seed of entropies) or too many (DiscreteData) keywords."
 },
 "C99": {
  "note": "C99_disjoint_refuted and C99_below_entropy_refuted show what a user might expect and does not get (0 instead of an infinite value without common support). Joint (2-D) arguments are covered by C27_kld_2d_refuted; Bayes is proved for a numeric alpha and K = None."
 },
 "C100": {
  "note": "All values are those of the exact-arithmetic model; MI, CMI, TE, CTE and the ordinal measures need fewer than 2^32 samples as elsewhere (small2), ordinal TE and CTE an embedding_dim of at most 20. The ordinal entropy and MI are compared on two series with one and the same argsort."
 },
 "C107": {
  "note": "Model of the rounded evaluation in MFloat.v (round to nearest even, 53 bits, gradual underflow, no overflow); the logarithms and the order of summation are parameters, assumed only to be accurate / to add every element once."
 },
 "C110": {
  "note": "Proved pointwise for discrete, Miller-Madow, Zhang and shrinkage entropy, for discrete MI (two 1-D or 2-D variables, offset, three or more variables), CMI (1-D and 2-D condition), TE and CTE, for the ordinal entropy, MI (with offset), CMI, TE and CTE (as pointwise quantities of the ordinal patterns), for Miller-Madow MI, CMI and TE; C110_reorder is the equivariance. C110_mi_many assumes that no variable is constant: a constant variable makes the code return the early value, covered by the global theorems."
 },
 "C111": {
  "note": "Programs on memory (MHeap.v): arrays are views (arbitrary positions) into buffers, += writes in place, asarray and slices alias. For each call: every old buffer is unchanged, and for a noise level >= 0 the result is that of the value models used by the other claims (for a negative level, which numpy refuses when noise is drawn, only the frame is stated). Read-only numpy operations are applied to the values read. Discrete, ordinal and kernel estimators contain no in-place operation on arrays and are not modelled on memory."
 },
 "C112": {
  "note": "Model MWorld.v: generators are objects with identity, estimators hold references (default_rng returns a given Generator itself); MObj/MObjC supply the methods. The position of a generator is an index into arbitrary sequences (numpy's next state also depends on the kind of draw). The lack of a guarantee for shared and missing seeds is part of the statement and proved as C112_shared_or_unseeded_refuted.",
  "status": "proved"
 },
 "C07": {
  "note": "Proved for 1-D variables (any number), pairs of 2-D variables, several 2-D variables of which none is constant, CMI with 1-D/2-D variables and any condition, TE/CTE, Miller-Madow. Refuted for three or more 2-D variables of which one is constant: the local values are all 0 while the value is the shared information of the others (C07_mi_rows_constant_refuted; discrete_interaction_information.py 197-246 vs 309-311)."
 },
 "C113": {
  "note": "Continuity proved for all six measures (positive k-th neighbour distances), from Bohr-Mollerup: gamma is any log-convex function with the recursion; its existence and uniqueness are proved (C113_gamma_exists). Refuted: Tsallis with a base other than e jumps at order 1; with coinciding samples Renyi diverges near order 1.",
  "status": "proved"
 },
 "C114": {
  "note": "The data part of the Renyi estimate is monotone and bounded by the extreme neighbour distances (all orders, order 1 included). Refuted: the estimate itself is not non-increasing in the order (equidistant samples; two samples, Renyi and Tsallis).",
  "status": "proved"
 },
 "C115": {
  "note": "Continuity: C115_entropy, C115_joint_entropy, C115_cross_entropy, C115_family_*. Local constancy of KSG without ties: C115_ksg_* (MI for every norm; CMI, TE, CTE for the maximum norm). Noise: C115_noise_*. The clause about ties is C115_ties_refuted (KSG MI jumps under arbitrarily small changes) and C115_noise_ties_refuted. The hypotheses are met by C115_apart_example, C115_tie_free_example, C115_ref_apart_example. Not covered: KSG CMI/TE/CTE with other norms.",
  "status": "proved"
 },
 "C116": {
  "note": "Box kernel: C116_box_* (locally constant without samples on a box edge), C116_edge_refuted gives the jump the statement mentions. Gaussian kernel: C116_gauss_* (one-dimensional). Not covered: multi-dimensional Gaussian kernel (oracle) and multi-dimensional conditional mutual information.",
  "status": "proved"
 },
 "C117": {
  "note": "Discrete MI and TE are stated for record lengths whose integer codes do not overflow (small2); the limit itself is over all lengths."
 },
 "C118": {
  "note": "Box kernel (the Gaussian kernel never has this property). Pairwise MI: C118_mi; any number of variables of any dimension as the combination of discrete entropies: C118_mi_combination. The condition of CTE and all of CMI one-dimensional; cross-entropy, KLD and JSD for one-dimensional samples (the discrete estimators number 2-D rows separately, see C27/C28). Sample sizes below 2^32 where the discrete cell products need it."
 },
 "C119": {
  "note": "Box kernel; integrals are iterated Riemann integrals, one coordinate after the other (C119_integral_unique: the value is determined). The Gaussian kernel is delegated to scipy and only modelled through its formula, its integral is not proved."
 }
}