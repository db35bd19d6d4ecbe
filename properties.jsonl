{"id": "C01", "title": "Discrete entropy is the plug-in Shannon entropy", "statement": "entropy(x, approach='discrete', base=b) on any non-empty 1-D array of symbols returns a finite number equal to minus the sum over the distinct values v of (count(v)/N) * log_b(count(v)/N).", "quantifier": "every non-empty array, every base 'e' or b>0, b!=1", "why_tests_cant": "The claim ranges over all data sets of every length and alphabet; a test fixes a few arrays.", "anchors": ["infomeasure/estimators/entropy/discrete.py:DiscreteEntropyEstimator._simple_entropy", "infomeasure/utils/data.py:DiscreteData.from_data", "infomeasure/estimators/base.py:Estimator._log_base"]}
{"id": "C02", "title": "Discrete entropy is bounded by 0 and log K, with exact equality cases", "statement": "0 <= entropy(x,'discrete') <= log_b K <= log_b N for b>1, where K is the number of distinct values; it is 0 exactly when the array is constant.", "quantifier": "every non-empty array, every base >1 or 'e'", "why_tests_cant": "The claim ranges over all data sets of every length and alphabet; a test fixes a few arrays.", "anchors": ["infomeasure/estimators/entropy/discrete.py:DiscreteEntropyEstimator._simple_entropy", "infomeasure/utils/data.py:DiscreteData"]}
{"id": "C03", "title": "Discrete entropy ignores sample order and symbol names", "statement": "Re-ordering the samples, or replacing every symbol through an injective map, leaves the discrete entropy unchanged.", "quantifier": "every array, every permutation, every injective relabelling", "why_tests_cant": "The claim ranges over all data sets of every length and alphabet; a test fixes a few arrays.", "anchors": ["infomeasure/estimators/entropy/discrete.py", "infomeasure/utils/data.py:DiscreteData.from_data"]}
{"id": "C04", "title": "Joint entropy of a tuple is the entropy of the tuple-valued sequence", "statement": "entropy((x1,...,xn),'discrete') equals the plug-in entropy of the sequence of rows (x1[t],...,xn[t]); arrays of unequal length are rejected with ValueError; it is at least each marginal entropy and at most their sum, and independent of the order of the arrays in the tuple.", "quantifier": "every tuple of arrays of every common length", "why_tests_cant": "The claim ranges over all data sets of every length and alphabet; a test fixes a few arrays.", "anchors": ["infomeasure/estimators/base.py:DiscreteHEstimator._reduce_space", "infomeasure/estimators/utils/ordinal.py:reduce_joint_space", "infomeasure/estimators/base.py:EntropyEstimator.__init__"]}
{"id": "C05", "title": "reduce_joint_space codes identify rows exactly", "statement": "The codes returned for a 2-D array or tuple of arrays are equal at two positions iff the rows are equal there, use exactly 0..K-1, and are ordered as the rows lexicographically; 1-D input is returned unchanged; lists are rejected.", "quantifier": "every array with any number of rows and columns", "why_tests_cant": "The claim ranges over all data sets of every length and alphabet; a test fixes a few arrays.", "anchors": ["infomeasure/estimators/utils/ordinal.py:reduce_joint_space"]}
{"id": "C06", "title": "Local values average to the global value (discrete entropy, Miller-Madow, Zhang, Grassberger)", "statement": "Whenever local_vals() returns an array for these entropy estimators its arithmetic mean equals global_val() and its length equals the data length.", "quantifier": "every non-empty array, every valid base", "why_tests_cant": "The claim ranges over all data sets of every length and alphabet; a test fixes a few arrays.", "anchors": ["infomeasure/estimators/base.py:Estimator.local_vals", "infomeasure/estimators/entropy/discrete.py", "infomeasure/estimators/entropy/miller_madow.py", "infomeasure/estimators/entropy/zhang.py", "infomeasure/estimators/entropy/grassberger.py"]}
{"id": "C07", "title": "Local values average to the global value (MI, CMI, TE, CTE)", "statement": "For the discrete MI, CMI, TE and CTE estimators the mean of local_vals() equals global_val() and there is one local value per sample row.", "quantifier": "every data set of equal-length arrays (1-D or 2-D, conditions also tuples), any number of variables, no intermediate 64-bit overflow", "why_tests_cant": "The claim ranges over all data sets of every length and alphabet; a test fixes a few arrays.", "anchors": ["infomeasure/estimators/utils/discrete_interaction_information.py:mutual_information_local", "infomeasure/estimators/utils/discrete_interaction_information.py:conditional_mutual_information_local", "infomeasure/estimators/utils/discrete_transfer_entropy.py:combined_te_form"]}
{"id": "C08", "title": "Changing the logarithm base only rescales results", "statement": "For every discrete measure the result with base b multiplied by ln b equals the result with base 'e'.", "quantifier": "every data set, every b>0, b!=1, every discrete measure", "why_tests_cant": "The claim ranges over all data sets of every length and alphabet; a test fixes a few arrays.", "anchors": ["infomeasure/estimators/base.py:Estimator._log_base", "infomeasure/estimators/utils/discrete_interaction_information.py:millermadow_mi_corr"]}
{"id": "C09", "title": "Unusable logarithm bases are rejected", "statement": "Every base that is not 'e' or a positive number other than 1 makes result() raise ValueError instead of returning a value.", "quantifier": "every base and data set", "why_tests_cant": "All bases, all approaches; only a few are ever tried in tests.", "anchors": ["infomeasure/estimators/base.py:Estimator._log_base", "infomeasure/estimators/entropy/chao_shen.py", "infomeasure/estimators/entropy/miller_madow.py"]}
{"id": "C10", "title": "Two-variable MI equals H(X)+H(Y)-H(X,Y) and is never negative", "statement": "mutual_information(x,y,'discrete') equals the sum of the two plug-in entropies minus the joint plug-in entropy, and is >= 0.", "quantifier": "every pair of equal-length non-empty 1-D arrays with fewer than 2^32 samples, or 2-D arrays of any length; base>1 or 'e'", "why_tests_cant": "The claim ranges over all data sets of every length and alphabet; a test fixes a few arrays.", "anchors": ["infomeasure/estimators/utils/discrete_interaction_information.py:_mutual_information_global_2d_int", "infomeasure/estimators/mutual_information/discrete.py:DiscreteMIEstimator"]}
{"id": "C11", "title": "MI is symmetric and bounded by the entropies; MI(X;X)=H(X)", "statement": "mi(x,y)=mi(y,x); mi(x,x)=entropy(x); mi(x,y) <= min(entropy(x),entropy(y)).", "quantifier": "every pair of arrays (1-D with fewer than 2^32 samples, or 2-D of any length)", "why_tests_cant": "The claim ranges over all data sets of every length and alphabet; a test fixes a few arrays.", "anchors": ["infomeasure/estimators/utils/discrete_interaction_information.py:_mutual_information_global_2d_int"]}
{"id": "C12", "title": "MI is zero exactly under empirical independence", "statement": "mi(x,y,'discrete')=0 iff count(x=a,y=b)*N = count(x=a)*count(y=b) for all a,b.", "quantifier": "every pair of arrays (1-D with fewer than 2^32 samples, or 2-D of any length)", "why_tests_cant": "The claim ranges over all data sets of every length and alphabet; a test fixes a few arrays.", "anchors": ["infomeasure/estimators/utils/discrete_interaction_information.py:_mutual_information_global_2d_int"]}
{"id": "C13", "title": "Multi-variable MI is the total correlation", "statement": "mutual_information(x1,...,xn,'discrete') for n>=3 equals sum H(Xi) - H(X1,...,Xn).", "quantifier": "every n>=3 and every tuple of arrays, including arrays where some variable is constant", "why_tests_cant": "The claim ranges over all data sets of every length and alphabet; a test fixes a few arrays.", "anchors": ["infomeasure/estimators/utils/discrete_interaction_information.py:_mutual_information_global_nd_int", "infomeasure/estimators/utils/discrete_interaction_information.py:mutual_information_local"]}
{"id": "C14", "title": "MI of any number of variables is a finite number", "statement": "mutual_information(x1,...,xn,'discrete') returns a finite value for all inputs (no intermediate wrap-around).", "quantifier": "every number of variables and every array length", "why_tests_cant": "Overflow needs many variables or many samples, beyond any test size.", "anchors": ["infomeasure/estimators/utils/discrete_interaction_information.py:_mutual_information_global_nd_int", "infomeasure/estimators/utils/discrete_interaction_information.py:_conditional_mutual_information_global_nd_int"]}
{"id": "C15", "title": "MI of multi-dimensional variables agrees with MI of their joint symbols", "statement": "When some variable is a 2-D array, the MI equals the sum of row entropies minus the entropy of the joined rows.", "quantifier": "every tuple of 2-D arrays", "why_tests_cant": "The claim ranges over all data sets of every length and alphabet; a test fixes a few arrays.", "anchors": ["infomeasure/estimators/utils/discrete_interaction_information.py:_mutual_information_global_nd_other"]}
{"id": "C16", "title": "Conditional MI of two variables: entropy identity and non-negativity", "statement": "cmi(x,y,cond=z,'discrete') = H(X,Z)+H(Y,Z)-H(X,Y,Z)-H(Z) >= 0.", "quantifier": "every triple of equal-length arrays (1-D or row-valued, condition also a tuple of arrays) with fewer than 2^32 samples", "why_tests_cant": "The claim ranges over all data sets of every length and alphabet; a test fixes a few arrays.", "anchors": ["infomeasure/estimators/utils/discrete_interaction_information.py:_conditional_mutual_information_global_nd_int", "infomeasure/estimators/mutual_information/discrete.py:DiscreteCMIEstimator"]}
{"id": "C17", "title": "Conditional MI of n variables follows its documented definition", "statement": "cmi(x1..xn,cond=z) equals the expectation of log p(x1..xn|z)/prod p(xi|z) (first documented form) and equals sum H(Xi,Z)-H(all,Z)-H(Z) (last documented form); in particular it is 0 for conditionally independent variables.", "quantifier": "every n>=2 and all arrays", "why_tests_cant": "The claim ranges over all data sets of every length and alphabet; a test fixes a few arrays.", "anchors": ["infomeasure/estimators/utils/discrete_interaction_information.py:_conditional_mutual_information_global_nd_int", "docs/guide/cond_mi/index.md"]}
{"id": "C18", "title": "CMI is symmetric, reduces to MI for a constant condition, and satisfies the chain rule", "statement": "cmi(x,y|z)=cmi(y,x|z); with constant z it equals mi(x,y); mi(x,(y,z)) = mi(x,z)+cmi(x,y|z).", "quantifier": "every triple of arrays (1-D or 2-D, condition also a tuple of arrays, fewer than 2^32 samples)", "why_tests_cant": "The claim ranges over all data sets of every length and alphabet; a test fixes a few arrays.", "anchors": ["infomeasure/estimators/utils/discrete_interaction_information.py:_conditional_mutual_information_global_nd_int"]}
{"id": "C19", "title": "Discrete TE is the conditional MI of future and source history given destination history", "statement": "te(source,dest,'discrete') = I(dest future; source history | dest history) over the embedded rows, hence is >= 0, equals the four-entropy combination, and is 0 for a constant source.", "quantifier": "every pair of series, all valid history lengths and step sizes (fewer than 2^32 samples)", "why_tests_cant": "The claim ranges over all data sets of every length and alphabet; a test fixes a few arrays.", "anchors": ["infomeasure/estimators/utils/discrete_transfer_entropy.py:combined_te_form", "infomeasure/estimators/transfer_entropy/discrete.py"]}
{"id": "C20", "title": "TE embedding aligns every row with the right time stamps", "statement": "Row r of te_observations uses base time b=max(k,l)*s + r*s: destination future dest[b], destination history dest[b-k*s..b-s], source history source[b-l*s..b-s] (oldest first); there are ceil((n-max(k,l)*s)/s) rows; all indices are in range.", "quantifier": "every series length, history length and step size", "why_tests_cant": "The claim ranges over all data sets of every length and alphabet; a test fixes a few arrays.", "anchors": ["infomeasure/estimators/utils/te_slicing.py:te_observations", "infomeasure/estimators/utils/te_slicing.py:_src_dest_slices"]}
{"id": "C21", "title": "TE embedding rejects exactly the unusable parameters", "statement": "te_observations/cte_observations raise ValueError iff a history length or step size is < 1, or the maximal history times step size is >= the series length; otherwise the result is non-empty.", "quantifier": "every parameter combination", "why_tests_cant": "The claim ranges over all data sets of every length and alphabet; a test fixes a few arrays.", "anchors": ["infomeasure/estimators/utils/te_slicing.py:te_observations", "infomeasure/estimators/utils/te_slicing.py:cte_observations"]}
{"id": "C22", "title": "Source permutation and resampling touch only the source embedding", "statement": "With permute_src the source-history rows are a permutation of the unpermuted rows, with resample_src each is one of them and their number is unchanged; destination history, future and condition rows are unchanged. Requesting both raises ValueError.", "quantifier": "every series and every outcome of the random generator", "why_tests_cant": "All random outcomes must be covered.", "anchors": ["infomeasure/estimators/utils/te_slicing.py:_src_dest_slices"]}
{"id": "C23", "title": "Propagation time shifts source against destination", "statement": "te(source,dest,prop_time=p) equals te on the pair (source without last p*s, dest without first p*s) for p>0 and the mirrored trimming for p<0; offset is an alias, giving both is rejected.", "quantifier": "every series, every propagation time (incl. larger than the series) and step size (values: fewer than 2^32 samples)", "why_tests_cant": "The claim ranges over all data sets of every length and alphabet; a test fixes a few arrays.", "anchors": ["infomeasure/estimators/base.py:TransferEntropyEstimator.__init__"]}
{"id": "C24", "title": "Conditional TE is conditional MI given the joint destination and condition history", "statement": "cte = I(dest future; source history | dest history, cond history) >= 0; with a constant condition whose history is not longer than the others it equals te.", "quantifier": "every triple of series and valid parameters (fewer than 2^32 samples)", "why_tests_cant": "The claim ranges over all data sets of every length and alphabet; a test fixes a few arrays.", "anchors": ["infomeasure/estimators/utils/te_slicing.py:cte_observations", "infomeasure/estimators/utils/discrete_transfer_entropy.py:combined_te_form"]}
{"id": "C25", "title": "Dedicated and entropy-combination formulas agree", "statement": "The generic MI/CMI/TE/CTE-from-entropies computations, instantiated with the discrete entropy, give the same value as the dedicated discrete estimators.", "quantifier": "every data set (fewer than 2^32 samples)", "why_tests_cant": "The claim ranges over all data sets of every length and alphabet; a test fixes a few arrays.", "anchors": ["infomeasure/estimators/base.py:_generic_mi_from_entropy", "infomeasure/estimators/base.py:_generic_cmi_from_entropy", "infomeasure/estimators/base.py:_generic_te_from_entropy", "infomeasure/estimators/base.py:_generic_cte_from_entropy"]}
{"id": "C26", "title": "Miller-Madow entropy and MI corrections are consistent", "statement": "Miller-Madow entropy is the plug-in entropy plus (K-1)/(2N ln b); Miller-Madow MI/CMI/TE equals the same signed combination of Miller-Madow entropies.", "quantifier": "every data set and base (fewer than 2^32 samples for mutual information and transfer entropy)", "why_tests_cant": "The claim ranges over all data sets of every length and alphabet; a test fixes a few arrays.", "anchors": ["infomeasure/estimators/entropy/miller_madow.py", "infomeasure/estimators/utils/discrete_interaction_information.py:millermadow_mi_corr", "infomeasure/estimators/mutual_information/miller_madow.py"]}
{"id": "C27", "title": "KLD is non-negative and zero only for equal distributions", "statement": "kld(p,q,'discrete') >= 0, = sum p log(p/q), and = 0 iff the empirical distributions coincide; if p has mass where q has none the divergence is infinite or an error.", "quantifier": "every pair of arrays, also with different supports", "why_tests_cant": "The claim ranges over all data sets of every length and alphabet; a test fixes a few arrays.", "anchors": ["infomeasure/composite_measures/kld.py", "infomeasure/estimators/entropy/discrete.py:_cross_entropy"]}
{"id": "C28", "title": "JSD lies between 0 and log n, is symmetric, and vanishes for equal distributions", "statement": "jsd(x1..xn,'discrete') equals H(mixture)-mean H(Pi), is within [0, log_b n], invariant under reordering arguments, and 0 if all empirical distributions are equal.", "quantifier": "every n>=1 and all arrays", "why_tests_cant": "The claim ranges over all data sets of every length and alphabet; a test fixes a few arrays.", "anchors": ["infomeasure/composite_measures/jsd.py"]}
{"id": "C29", "title": "Lehmer code is a bijection between permutations and 0..n!-1", "statement": "permutation_to_integer is injective on permutations of n<=20 elements, and its values are < n!; for n>20 it raises ValueError.", "quantifier": "every permutation of every length", "why_tests_cant": "20! permutations cannot be enumerated.", "anchors": ["infomeasure/estimators/utils/ordinal.py:permutation_to_integer"]}
{"id": "C30", "title": "Ordinal symbol codes never overflow their dtype", "statement": "For every embedding dimension up to 20 the dtype picked by symbolize_series holds every Lehmer code and every intermediate, so the code is the exact integer.", "quantifier": "every embedding dimension <=20 and every permutation", "why_tests_cant": "20! permutations cannot be enumerated.", "anchors": ["infomeasure/estimators/utils/ordinal.py:symbolize_series", "infomeasure/estimators/utils/ordinal.py:permutation_to_integer"]}
{"id": "C31", "title": "Ordinal patterns sort their window and depend only on order", "statement": "symbolize_series yields n-(d-1)*s patterns; each is a permutation that sorts its window; the patterns are unchanged by any strictly increasing transformation of the series.", "quantifier": "every series, dimension, step and strictly increasing map", "why_tests_cant": "The claim ranges over all data sets of every length and alphabet; a test fixes a few arrays.", "anchors": ["infomeasure/estimators/utils/ordinal.py:symbolize_series"]}
{"id": "C32", "title": "Ordinal entropy is bounded and its fast paths agree with the general pattern counting", "statement": "0 <= ordinal entropy <= log_b(d!); for d=2,3 (step 1) the fast path gives the same distribution as counting argsort patterns.", "quantifier": "every series, with and without ties", "why_tests_cant": "The claim ranges over all data sets of every length and alphabet; a test fixes a few arrays.", "anchors": ["infomeasure/estimators/entropy/ordinal.py"]}
{"id": "C33", "title": "Significance tests really randomise the source", "statement": "Each test value of statistical_test (and the surrogate in effective_val) is the measure evaluated with the source permuted/resampled, for MI, CMI, TE and CTE of every approach.", "quantifier": "every random outcome, every data set (fewer than 2^32 samples)", "why_tests_cant": "Depends on all random outcomes and all approaches.", "anchors": ["infomeasure/estimators/mixins.py:_test_mi", "infomeasure/estimators/mixins.py:_test_te", "infomeasure/estimators/utils/te_slicing.py:cte_observations", "infomeasure/estimators/mutual_information/ordinal.py"]}
{"id": "C34", "title": "statistical_test leaves the estimator unchanged", "statement": "After statistical_test or effective_val returns or raises, the data, the permutation flags and the subsequently returned global value are those of the untested estimator.", "quantifier": "every history of calls, including calls that raise at any point (discrete estimators: fewer than 2^32 samples)", "why_tests_cant": "Crash points and call histories.", "anchors": ["infomeasure/estimators/mixins.py:_test_mi", "infomeasure/estimators/mixins.py:_test_te", "infomeasure/estimators/base.py:Estimator.global_val"]}
{"id": "C35", "title": "Statistical test results are well-formed", "statement": "p_value is in [0,1] and is the fraction of test values exceeding the observed value; null_mean lies between the extreme test values; t_score is finite whenever not all test values are equal; n_tests>=2 valid requests succeed.", "quantifier": "every observed value and every sequence of test values", "why_tests_cant": "The claim ranges over all data sets of every length and alphabet; a test fixes a few arrays.", "anchors": ["infomeasure/estimators/mixins.py:_statistical_test_result"]}
{"id": "C36", "title": "Percentiles and confidence intervals", "statement": "confidence_interval(c) for 0<c<100 returns lower<=upper, both within [min,max] of the test values, nested in c; other levels raise ValueError; percentile is monotone in q.", "quantifier": "every sequence of test values and every level", "why_tests_cant": "The claim ranges over all data sets of every length and alphabet; a test fixes a few arrays.", "anchors": ["infomeasure/utils/data.py:StatisticalTestResult.percentile", "infomeasure/utils/data.py:StatisticalTestResult.confidence_interval"]}
{"id": "C37", "title": "Config is a total, validated store", "statement": "get after set returns the value; set of one key never changes another; a rejected set changes nothing; only values of the declared type or explicitly allowed are stored; reset restores the defaults; set_logarithmic_unit/get_logarithmic_unit round-trip.", "quantifier": "every sequence of Config operations", "why_tests_cant": "All operation histories.", "anchors": ["infomeasure/utils/config.py:Config"]}
{"id": "C38", "title": "A changed default base is used by every later calculation", "statement": "After Config.set('base',b) or set_logarithmic_unit, any measure computed without explicit base uses b.", "quantifier": "every history of imports, configuration changes and calculations", "why_tests_cant": "All interleavings of first uses and configuration changes.", "anchors": ["infomeasure/utils/config.py", "infomeasure/estimators/base.py", "infomeasure/estimators/functional.py:_dynamic_import", "docs/guide/settings.md"]}
{"id": "C39", "title": "Results are computed once and stable", "statement": "result()/global_val()/local_vals() called any number of times in any order return the same values, and the estimate is computed at most once; invalid results never get cached.", "quantifier": "every sequence of method calls", "why_tests_cant": "All call histories.", "anchors": ["infomeasure/estimators/base.py:Estimator.global_val", "infomeasure/estimators/base.py:Estimator.local_vals", "infomeasure/estimators/base.py:Estimator.calculate"]}
{"id": "C40", "title": "Measure/approach dispatch is total and consistent", "statement": "Each documented alias selects the same class; names are case-insensitive; unknown or missing names raise ValueError; every approach available for MI is available for CMI, TE, CTE and entropy. The six measure functions construct exactly the class so selected, from the data they were given, with every keyword but the approach passed on unchanged (the conditional class iff a condition is given), and refuse with ValueError a missing condition of a conditional function, fewer than two series, and for transfer entropies any number but two.", "quantifier": "all strings as measure/approach", "why_tests_cant": "All strings.", "anchors": ["infomeasure/estimators/functional.py:get_estimator_class", "infomeasure/estimators/functional.py:_get_estimator", "infomeasure/estimators/functional.py:entropy", "infomeasure/estimators/functional.py:cross_entropy", "infomeasure/estimators/functional.py:mutual_information", "infomeasure/estimators/functional.py:conditional_mutual_information", "infomeasure/estimators/functional.py:transfer_entropy", "infomeasure/estimators/functional.py:conditional_transfer_entropy"]}
{"id": "C41", "title": "The estimator object and the functional call agree", "statement": "estimator(*data, measure=m, approach=a, **kw).result() performs the same estimation with the same parameters as the function for m with the same arguments.", "quantifier": "all arguments and keyword arguments", "why_tests_cant": "All parameter combinations.", "anchors": ["infomeasure/estimators/functional.py:estimator", "infomeasure/estimators/functional.py:_dynamic_estimator"]}
{"id": "C42", "title": "DiscreteData invariants", "statement": "Every DiscreteData has as many counts as values, N = sum of counts > 0, probabilities in [0,1] summing to 1; from_data and from_counts of the same tallies give the same N, K, probabilities and hence the same entropy; invalid input is rejected.", "quantifier": "every array / every tally", "why_tests_cant": "The claim ranges over all data sets of every length and alphabet; a test fixes a few arrays.", "anchors": ["infomeasure/utils/data.py:DiscreteData", "infomeasure/estimators/base.py:DiscreteHEstimator.from_counts", "infomeasure/estimators/base.py:DiscreteHEstimator.from_probabilities"]}
{"id": "C43", "title": "Shrinkage probabilities form a distribution and never lower the entropy", "statement": "lambda is in [0,1]; the shrunk probabilities are positive and sum to 1; log K >= H_shrink >= H_MLE.", "quantifier": "every non-empty array", "why_tests_cant": "The claim ranges over all data sets of every length and alphabet; a test fixes a few arrays.", "anchors": ["infomeasure/estimators/entropy/shrink.py"]}
{"id": "C44", "title": "Shrinkage local values and shrinkage MI are consistent with shrinkage entropy", "statement": "mean(local_vals()) = global_val() for shrink, and shrink MI equals H_s(X)+H_s(Y)-H_s(X,Y).", "quantifier": "every data set", "why_tests_cant": "The claim ranges over all data sets of every length and alphabet; a test fixes a few arrays.", "anchors": ["infomeasure/estimators/entropy/shrink.py:_extract_local_values", "infomeasure/estimators/base.py:_generic_mi_from_entropy"]}
{"id": "C45", "title": "Bayesian posterior probabilities form a distribution", "statement": "The Bayes estimator's probabilities (n_k+a)/(N+K a) are positive and sum to 1, the entropy is within [0, log K], and every documented prior name is accepted case-insensitively.", "quantifier": "every array, alpha>0, every K", "why_tests_cant": "The claim ranges over all data sets of every length and alphabet; a test fixes a few arrays.", "anchors": ["infomeasure/estimators/entropy/bayes.py"]}
{"id": "C46", "title": "Zhang's estimator equals the digamma form and is non-negative", "statement": "zhang(x) = sum_i n_i/N * sum_{k=n_i}^{N-1} 1/k; it is >= 0, 0 for a constant array, and every internal factor is a probability (no division by zero).", "quantifier": "every non-empty array", "why_tests_cant": "The claim ranges over all data sets of every length and alphabet; a test fixes a few arrays.", "anchors": ["infomeasure/estimators/entropy/zhang.py"]}
{"id": "C47", "title": "Chao-Shen is finite and non-negative", "statement": "For every non-empty array Chao-Shen returns a finite non-negative number (positive coverage, positive inclusion probabilities).", "quantifier": "every non-empty array", "why_tests_cant": "The claim ranges over all data sets of every length and alphabet; a test fixes a few arrays.", "anchors": ["infomeasure/estimators/entropy/chao_shen.py"]}
{"id": "C48", "title": "Chao-Wang-Jost is finite and never below its digamma part", "statement": "The coverage parameter A is in (0,1], all divisions are defined and the estimate is >= sum n_i/N (psi(N)-psi(n_i)) >= 0.", "quantifier": "every non-empty array", "why_tests_cant": "The claim ranges over all data sets of every length and alphabet; a test fixes a few arrays.", "anchors": ["infomeasure/estimators/entropy/chao_wang_jost.py"]}
{"id": "C49", "title": "ANSB, Bonachela and Grassberger values follow their closed forms and domains", "statement": "Bonachela = 1/(N+2) sum (n_i+1) sum_{j=n_i+2}^{N+2} 1/j, finite and >=0 for all data; ANSB is undefined exactly without coincidences and otherwise (gamma-ln2)+2 ln N - psi(N-K); Grassberger's local values are ln N - psi(n)-(-1)^n/(n+1).", "quantifier": "every non-empty array", "why_tests_cant": "The claim ranges over all data sets of every length and alphabet; a test fixes a few arrays.", "anchors": ["infomeasure/estimators/entropy/bonachela.py", "infomeasure/estimators/entropy/ansb.py", "infomeasure/estimators/entropy/grassberger.py"]}
{"id": "C50", "title": "MI offset pairs the right samples", "statement": "mi(x,y,offset=o) equals mi of the pairs (x[t],y[t+o]) for all t where both exist, for positive and negative o; an offset with more than two variables is rejected.", "quantifier": "every pair of arrays, every offset", "why_tests_cant": "The claim ranges over all data sets of every length and alphabet; a test fixes a few arrays.", "anchors": ["infomeasure/estimators/base.py:MutualInformationEstimator.__init__"]}
{"id": "C51", "title": "0-1 normalisation maps into [0,1]", "statement": "normalize_data_0_1 maps each non-constant array into [0,1] attaining both ends, preserving order; finite for all arrays.", "quantifier": "every array", "why_tests_cant": "Includes constant arrays.", "anchors": ["infomeasure/estimators/utils/normalize.py"]}
{"id": "C52", "title": "Data-processing inequality", "statement": "Applying any function to the samples of one variable never increases discrete MI, CMI or entropy.", "quantifier": "every data set and every function on symbols (fewer than 2^32 samples for 1-D MI and CMI)", "why_tests_cant": "The claim ranges over all data sets of every length and alphabet; a test fixes a few arrays.", "anchors": ["infomeasure/estimators/utils/discrete_interaction_information.py"]}
{"id": "C53", "title": "Box-kernel densities are positive and chunked evaluation equals sequential evaluation", "statement": "Box KDE at the sample points is at least 1/(N h^d), so the kernel entropy is finite and at most log(N h^d); splitting the query points over any number of workers returns the same densities in the same order.", "quantifier": "every data set, bandwidth, number of workers", "why_tests_cant": "All chunkings and all data.", "anchors": ["infomeasure/estimators/utils/kde.py"]}
{"id": "C54", "title": "Step size has no effect on TE when all histories have length one", "statement": "As the library's warning states, transfer_entropy with src_hist_len = dest_hist_len = 1 returns the same value for every step_size.", "quantifier": "all pairs of series and all step sizes", "why_tests_cant": "a universally quantified equality claimed by a log message; a few series can agree by accident", "anchors": ["infomeasure/estimators/utils/te_slicing.py:te_observations"]}
{"id": "C55", "title": "Entropy estimates depend only on the multiset of counts", "statement": "For every count-based entropy approach (discrete, miller_madow, shrink, bayes, zhang, chao_shen, chao_wang_jost, ansb, nsb, bonachela, grassberger), reordering the samples and renaming the values injectively (including renaming whole rows of 2-D arrays or joint variables) leaves entropy() unchanged.", "quantifier": "all inputs, all permutations and all injective renamings", "why_tests_cant": "Tests compare a handful of arrays; the claim ranges over all permutations and renamings of all arrays.", "anchors": ["infomeasure/estimators/entropy/*.py", "infomeasure/utils/data.py:DiscreteData"]}
{"id": "C56", "title": "Entropy estimates are non-negative", "statement": "For every non-empty input and base > 1, each count-based entropy approach returns a non-negative number.", "quantifier": "all inputs, all bases > 1, all count-based approaches", "why_tests_cant": "Needs real inequalities for all count vectors; the Grassberger correction violates it on a thin family of inputs only.", "anchors": ["infomeasure/estimators/entropy/*.py"]}
{"id": "C57", "title": "Bias corrections never lower the plug-in estimate", "statement": "discrete <= miller_madow and discrete <= zhang <= chao_wang_jost for every input and base > 1.", "quantifier": "all inputs, all bases > 1", "why_tests_cant": "An inequality between transcendental functions of all count vectors.", "anchors": ["infomeasure/estimators/entropy/{discrete,miller_madow,zhang,chao_wang_jost}.py"]}
{"id": "C58", "title": "Ordinal MI, CMI, TE and CTE are the discrete measures of the ordinal-pattern sequences", "statement": "mutual_information / conditional_mutual_information / transfer_entropy / conditional_transfer_entropy with approach='ordinal' equal the plug-in discrete measure of the sequences of ordinal patterns of the series (patterns that sort their windows, stably if stable=True); ordinal MI is symmetric and lies in [0, log_b(d!)], the others are non-negative.", "quantifier": "every series over an ordered type, every embedding dimension (<=20 for TE), step and history length (fewer than 2^32 samples)", "why_tests_cant": "The claim ranges over all data sets of every length; codes must be faithful for all d! patterns.", "anchors": ["infomeasure/estimators/mutual_information/ordinal.py", "infomeasure/estimators/transfer_entropy/ordinal.py", "infomeasure/estimators/utils/ordinal.py:symbolize_series"]}
{"id": "C59", "title": "Box-kernel entropy is the mean negative log density; invariances", "statement": "entropy(data, approach='kernel', kernel='box', bandwidth=h) returns, for one array or a tuple of arrays (joint entropy), the mean over the samples of -log_b of the fraction of samples within h/2 in every coordinate divided by h^d; it does not depend on the order of the samples or on a translation, multiplying data and bandwidth by a adds d*log_b(a), and joint entropy (net of volume) is at least that of each part.", "quantifier": "every numeric data set with N>=2, every dimension, bandwidth h>0, base, number of workers", "why_tests_cant": "Ranges over all real data sets, dimensions and bandwidths.", "anchors": ["infomeasure/estimators/entropy/kernel.py:KernelEntropyEstimator", "infomeasure/estimators/utils/kde.py:kde_probability_density_function"]}
{"id": "C60", "title": "Kernel mutual information is the sum of kernel entropies minus the joint kernel entropy", "statement": "mutual_information(*vars, approach='kernel', kernel='box') equals sum of the kernel entropies of the variables minus their joint kernel entropy (same bandwidth), is invariant under permutation of the variables, common reordering of the samples, translations and common rescaling of data and bandwidth, and lies within fixed bounds; a time offset o pairs x(t) with y(t+o). Unlike the true mutual information it can be negative.", "quantifier": "any number >=2 of variables of any dimension, any N>=2, h>0, base", "why_tests_cant": "Ranges over all data sets and any number of variables.", "anchors": ["infomeasure/estimators/mutual_information/kernel.py:KernelMIEstimator", "infomeasure/estimators/base.py:MutualInformationEstimator"]}
{"id": "C61", "title": "Kernel conditional mutual information is the entropy combination", "statement": "mutual_information(*vars, cond=z, approach='kernel', kernel='box') equals sum_i H(X_i,Z) - H(X_1..X_k,Z) - H(Z) of the kernel entropies for one-dimensional variables and condition. For a multi-dimensional variable or condition the code uses wrong columns of the joint array, so the identity fails.", "quantifier": "any number of 1-D variables, any N>=2, h>0, base", "why_tests_cant": "Ranges over all data sets; the column mix-up only shows for multi-dimensional input.", "anchors": ["infomeasure/estimators/mutual_information/kernel.py:KernelCMIEstimator"]}
{"id": "C62", "title": "Kernel transfer entropy is kernel conditional mutual information of the embedded series", "statement": "transfer_entropy(source, dest, approach='kernel', kernel='box', step_size, history lengths) equals H(src_past,dst_past)+H(dst_past,dst_now)-H(src_past,dst_past,dst_now)-H(dst_past) of the kernel entropies of the time-delay embeddings; likewise conditional transfer entropy with the condition's past in every term; prop_time shifts the source.", "quantifier": "all series (1-D or multi-dimensional), all history lengths, step sizes, bandwidths, and permuted or resampled sources", "why_tests_cant": "Ranges over all series and embedding parameters.", "anchors": ["infomeasure/estimators/transfer_entropy/kernel.py", "infomeasure/estimators/utils/te_slicing.py"]}
{"id": "C63", "title": "Gaussian-kernel entropy of one-dimensional data", "statement": "entropy(x, approach='kernel', kernel='gaussian', bandwidth=h) of non-constant 1-D data is the mean of -log_b of the average of normal densities with standard deviation h*std(x) around the samples, independent of the number of workers and the order of samples; a*x+c adds log_b|a|; it lies between log_b(h*s*sqrt(2*pi)) and that plus log_b(N); cross-entropy uses the reference density, and the divergence of a data set from itself is 0. Constant data is rejected with ValueError.", "quantifier": "every 1-D data set, bandwidth factor h>0, base, number of workers", "why_tests_cant": "Ranges over all real data sets and worker counts, including the parallel chunking above 20000 samples.", "anchors": ["infomeasure/estimators/utils/kde.py:gaussian_kernel_densities", "infomeasure/estimators/entropy/kernel.py"]}
{"id": "C64", "title": "Kernel cross-entropy and Kullback-Leibler divergence", "statement": "cross_entropy(p, q, approach='kernel', kernel='box') is the mean over the samples p of -log_b of the box-kernel density of q, where samples of zero density contribute 0; cross-entropy of a data set with itself is its entropy and its divergence from itself is 0. Because zero densities are skipped the divergence of data sets with disjoint support is finite and may be negative.", "quantifier": "all pairs of data sets of equal dimension, h>0, base, workers", "why_tests_cant": "Ranges over all pairs of data sets.", "anchors": ["infomeasure/estimators/entropy/kernel.py:_cross_entropy", "infomeasure/composite_measures/kld.py"]}
{"id": "C65", "title": "Kernel Jensen-Shannon divergence", "statement": "jensen_shannon_divergence(*data, approach='kernel', kernel='box') is the kernel entropy of the concatenated samples minus the mean of the kernel entropies: symmetric in the data sets, 0 for equal data sets, and at most log_b(number of data sets) for data sets of equal size. It can be negative.", "quantifier": "any number of data sets of equal dimension, h>0, base, workers", "why_tests_cant": "Ranges over all collections of data sets.", "anchors": ["infomeasure/composite_measures/jsd.py", "infomeasure/estimators/entropy/kernel.py"]}
{"id": "C66", "title": "Kernel estimators reject invalid parameters", "statement": "Every kernel measure raises ValueError for a bandwidth that is not a positive number and for an unknown kernel name; the box kernel also for an invalid number of workers. The Gaussian kernel silently accepts any number of workers (0 or negative) below 20000 samples.", "quantifier": "all data sets and all parameter values", "why_tests_cant": "Ranges over all invalid values and all data.", "anchors": ["infomeasure/estimators/utils/kde.py:kde_probability_density_function"]}
{"id": "C67", "title": "KSG mutual information evaluates the KSG expression", "statement": "mutual_information(x1,...,xm, approach='metric', k, ksg_id, minkowski_p, noise_level=0) equals, for each sample, psi(k) [- 1/k for ksg_id 2] - sum_i psi(n_i+1) + (m-1) psi(N), where the distance to the k-th nearest other joint sample is e and n_i is the number of other samples that variable i alone puts closer than (ksg_id 2: not farther than) e; the result is the mean, in the requested base.", "quantifier": "every number of variables, dimension, sample size, data with or without ties, 1<=k<N, Minkowski p>=1 or inf, both variants, every base", "why_tests_cant": "Counting conventions (self-exclusion, strictness, ties) only show for particular data configurations; tests sample a few.", "anchors": ["infomeasure/estimators/mutual_information/kraskov_stoegbauer_grassberger.py: KSGMIEstimator._calculate", "infomeasure/estimators/mutual_information/kraskov_stoegbauer_grassberger.py: BaseKSGMIEstimator.__init__"]}
{"id": "C68", "title": "KSG mutual information depends on distances only", "statement": "The KSG mutual information is unchanged by reordering the variables, by reordering the samples of all variables alike, and by any map of each variable that multiplies all distances by one common positive factor (shifts, reflections, common rescaling).", "quantifier": "all data, permutations, isometries, scale factors", "why_tests_cant": "Invariance under every permutation and isometry is universal over data and maps.", "anchors": ["infomeasure/estimators/mutual_information/kraskov_stoegbauer_grassberger.py: KSGMIEstimator._calculate"]}
{"id": "C69", "title": "Range of the KSG mutual information", "statement": "With N samples of m variables the KSG mutual information lies between psi(k)-psi(N) and (m-1)(psi(N)-psi(k)) (variant 1 without ties in the joint space), resp. between psi(k)-1/k-psi(N) and (m-1)(psi(N)-psi(k))-(m+1)/k (variant 2, all data).", "quantifier": "all data, k, m, N, norms", "why_tests_cant": "A bound over all data cannot be established by examples.", "anchors": ["infomeasure/estimators/mutual_information/kraskov_stoegbauer_grassberger.py: KSGMIEstimator._calculate"]}
{"id": "C70", "title": "Invalid KSG parameters are rejected", "statement": "The KSG estimators reject a variant other than 1 and 2, a Minkowski parameter below 1, a negative noise level, a non-positive number of neighbours, and a number of neighbours that the sample does not have (k >= N).", "quantifier": "all parameter values and data", "why_tests_cant": "The parameter space is unbounded and some invalid values pass silently.", "anchors": ["infomeasure/estimators/mutual_information/kraskov_stoegbauer_grassberger.py: BaseKSGMIEstimator.__init__, KSGMIEstimator._calculate"]}
{"id": "C71", "title": "Offset and noise of the KSG mutual information", "statement": "offset=o>0 pairs sample t of the first series with sample t+o of the second (o<0 vice versa) and uses nothing else; noise_level=l>0 gives exactly the noise-free result of the series in which each value is moved by l times one standard-normal draw of its own; with noise_level=0 the random generator has no influence.", "quantifier": "all series, offsets, noise levels, sequences of random draws", "why_tests_cant": "Quantifies over all random sequences; tests fix a seed.", "anchors": ["infomeasure/estimators/mutual_information/kraskov_stoegbauer_grassberger.py: KSGMIEstimator._calculate", "infomeasure/estimators/base.py: MutualInformationEstimator.__init__"]}
{"id": "C72", "title": "KSG conditional mutual information", "statement": "conditional_mutual_information(x1,...,xm, cond=z, approach='metric') evaluates psi(k) [-1/k] + psi(n_z+1) - sum_i psi(n_iz+1) with the counts in the conditioned spaces; it is symmetric in the variables, bounded, equals the mutual information when the condition is constant, and noise moves every value by one draw.", "quantifier": "all data, conditions, k, norms, variants, bases, random draws", "why_tests_cant": "Universal over data, conditions and random draws.", "anchors": ["infomeasure/estimators/mutual_information/kraskov_stoegbauer_grassberger.py: KSGCMIEstimator._calculate"]}
{"id": "C73", "title": "KSG transfer entropy is conditional mutual information of the embedded series", "statement": "transfer_entropy(source, dest, approach='metric', ...) equals the KSG conditional mutual information of (source past, destination present) given the destination past, and conditional transfer entropy additionally given the past of the condition; prop_time shifts the source; noise moves each value by its own draw; k must be smaller than the number of embedded samples.", "quantifier": "all series, history lengths, step sizes, propagation times, permutations/resamplings, k, norms, variants", "why_tests_cant": "Embedding indices and neighbour counts interact for all lengths and data.", "anchors": ["infomeasure/estimators/transfer_entropy/kraskov_stoegbauer_grassberger.py: KSGTEEstimator, KSGCTEEstimator", "infomeasure/estimators/utils/te_slicing.py"]}
{"id": "C74", "title": "Volumes of norm balls", "statement": "unit_ball_volume(d, r, p) is the volume of the d-dimensional ball of radius r: for p=2 the recursion V_1=2r, V_2=pi r^2, V_(d+2)=2 pi r^2/(d+2) V_d across the special-cased and general branches, for p=inf the cube (2r)^d, for p=1 (2r)^d/d!, for d=1 always 2r; and V_d(a r)=a^d V_d(r).", "quantifier": "every dimension d>=1, radius and norm p>=1", "why_tests_cant": "The branches agree with the general formula for every dimension only by an inductive argument.", "anchors": ["infomeasure/estimators/utils/unit_ball_volume.py: unit_ball_volume"]}
{"id": "C75", "title": "Kozachenko-Leonenko entropy", "statement": "entropy(x, approach='metric', k, ...) is the mean over the samples of psi(N)-psi(k) [+1/k for variant 2] + ln(volume of the ball reaching the k-th nearest other sample), for one variable of any dimension or a joint tuple; scaling the data by c adds d ln c, shifts, reflections and reorderings change nothing; the variants differ by 1/k.", "quantifier": "all data, dimensions, k<N, norms, bases, scale factors, permutations", "why_tests_cant": "Scaling laws and neighbour search correctness are universal statements over data.", "anchors": ["infomeasure/estimators/entropy/kozachenko_leonenko.py: KozachenkoLeonenkoEntropyEstimator._simple_entropy, _joint_entropy"]}
{"id": "C76", "title": "Invalid parameters of the metric entropy are rejected", "statement": "The metric entropy and cross-entropy reject, with ValueError, a k that is not a positive integer, a negative noise level, a Minkowski parameter below 1, an unknown variant, and more neighbours than there are samples.", "quantifier": "all parameter values and data", "why_tests_cant": "Unbounded parameter space; k>=N passes silently to inf/nan.", "anchors": ["infomeasure/estimators/entropy/kozachenko_leonenko.py: __init__"]}
{"id": "C77", "title": "Metric cross-entropy and KL divergence", "statement": "cross_entropy(p, q, approach='metric') is the mean over the samples of p of psi(M)-psi(k) [+1/k] + ln(volume of the ball reaching the k-th nearest sample of q); kullback_leibler_divergence is the difference of cross-entropy and entropy, and the divergence of a sample from itself is 0; k=1 is allowed; different numbers of coordinates are rejected with ValueError.", "quantifier": "all pairs of samples of any sizes and dimension, k, variants, norms, bases", "why_tests_cant": "The divisor error only shows for unequal sample sizes and the self-divergence only for particular neighbour structures; all data must be covered.", "anchors": ["infomeasure/estimators/entropy/kozachenko_leonenko.py: _cross_entropy", "infomeasure/composite_measures/kld.py:kullback_leiber_divergence"]}
{"id": "C78", "title": "Renyi and Tsallis entropy by nearest neighbours", "statement": "For 0<q<k+1, q != 1, entropy(x, approach='renyi', alpha=q, k) is ln(I)/(1-q) and entropy(x, approach='tsallis', q=q, k) is (1-I)/(q-1), where I = Gamma(k)/Gamma(k+1-q) times the mean over samples of ((N-1) times the Euclidean ball volume at the k-th neighbour distance)^(1-q); at order 1 both equal the same Shannon estimate, which differs from the Kozachenko-Leonenko estimate by ln(N-1)-psi(N); T_q=(1-exp((1-q)R_q))/(q-1); scaling the data by c adds d ln c to Renyi, and isometries and reorderings change nothing.", "quantifier": "all data, dimensions, k<N, orders, bases, scale factors, permutations", "why_tests_cant": "Identities between estimators and scaling laws over all data and real orders.", "anchors": ["infomeasure/estimators/entropy/renyi.py", "infomeasure/estimators/entropy/tsallis.py", "infomeasure/estimators/utils/exponential_family.py"]}
{"id": "C79", "title": "Parameters, coinciding samples and cross-entropies of Renyi/Tsallis", "statement": "Invalid k or order, too many neighbours and mismatched dimensions raise ValueError; every accepted order gives a finite result that obeys the scaling law, also when samples coincide; the cross-entropy uses the same formulas with the distances of the samples of p to the k-th nearest of the M samples of q, for every accepted k.", "quantifier": "all parameter values, orders and data, including repeated samples", "why_tests_cant": "Special orders (q=k+1, q>k+1), k=1 and repeated samples are measure-zero corners that sampled tests miss.", "anchors": ["infomeasure/estimators/entropy/renyi.py", "infomeasure/estimators/entropy/tsallis.py", "infomeasure/estimators/utils/exponential_family.py"]}
{"id": "C80", "title": "Renyi and Tsallis mutual information and conditional mutual information", "statement": "For approach 'renyi' and 'tsallis', mutual information of m >= 2 variables is the sum of their entropies less the entropy of the joint variable, and conditional mutual information is the sum of the H(x_i, z) less H(x_1..x_m, z) and H(z), each entropy being the Leonenko-Pronzato-Savani estimate from k-th neighbour distances of that (joint) variable. The result does not depend on the order of the variables, only on the Euclidean distances between samples; Renyi mutual information is unchanged by reordering the samples and by rescaling all variables by one factor. At order 1 both measures agree. noise_level moves each sample by one draw of its own; offset pairs shifted samples; invalid k or order and k >= N give ValueError. They need not be non-negative, and a constant condition does not drop out.", "quantifier": "all variables (any number, dimension and length), k, orders, bases, offsets, noise levels and generators", "why_tests_cant": "Agreement with the defining combination of entropies, symmetry and scale invariance range over all real data sets; examples cannot show them.", "anchors": ["infomeasure/estimators/mutual_information/renyi.py:RenyiMIEstimator", "infomeasure/estimators/mutual_information/tsallis.py:TsallisMIEstimator", "infomeasure/estimators/base.py:_generic_mi_from_entropy", "infomeasure/estimators/base.py:_generic_cmi_from_entropy"]}
{"id": "C81", "title": "Renyi and Tsallis transfer entropy is conditional mutual information of the embedded series", "statement": "For approach 'renyi' and 'tsallis', transfer entropy equals the conditional mutual information, with the same k and order, between the source's past and the destination's present given the destination's past; conditional transfer entropy is given the joint past of destination and condition. prop_time shifts the destination, noise is drawn for the source, then the destination, then the condition; k not smaller than the number of embedded samples and invalid parameters give ValueError; at order 1 both measures agree.", "quantifier": "all series, history lengths, step sizes, k, orders, bases, shuffles of the source", "why_tests_cant": "An identity between two computations for all series and embeddings.", "anchors": ["infomeasure/estimators/transfer_entropy/renyi.py:RenyiTEEstimator", "infomeasure/estimators/transfer_entropy/tsallis.py:TsallisTEEstimator", "infomeasure/estimators/base.py:_generic_te_from_entropy", "infomeasure/estimators/base.py:_generic_cte_from_entropy"]}
{"id": "C82", "title": "NSB entropy is the stated ratio of integrals, in range, and undefined without coincidences", "statement": "entropy(approach='nsb') returns the ratio of the two integrals over [0, ln K] (weight times prior density times posterior mean entropy, over weight times prior density) in units of the base; the ratio exists with a positive denominator for every non-empty sample and every K >= 2 other than the sample size; it lies between 0 and the logarithm of the number of observed values; it is nan exactly if K equals the sample size or K <= 1 (so also for constant data); it depends only on the multiset of counts, not on the internal extremum search; local values are refused; MI with this approach is the sum of its entropies minus the joint one and rejects K <= 0.", "quantifier": "every non-empty sample, every K, every valid base", "why_tests_cant": "Existence, positivity and bounds of the integrals must hold for all count profiles and all K; tests compare a few numbers.", "anchors": ["infomeasure/estimators/entropy/nsb.py:NsbEntropyEstimator", "infomeasure/estimators/mutual_information/nsb.py"]}
{"id": "C83", "title": "MI, CMI, TE and CTE of ANSB and NSB are the signed combination of their entropies, undefined exactly when one of them is", "statement": "For approaches ansb and nsb, mutual information, conditional MI, transfer entropy and conditional TE equal the signed sum of that approach's own entropies of the (embedded) variables if all are defined and are nan otherwise; two-variable ANSB MI equals (gamma - ln 2 + 2 ln N - psi(N-Kx) - psi(N-Ky) + psi(N-Kxy))/ln b; an explicit K makes the ANSB entropy a function of N and K alone, undefined from K = N on; a negative `undersampled` or a non-positive K is a ValueError in all four measures.", "quantifier": "every data set, history lengths, step sizes, bases", "why_tests_cant": "Whether the fallback from local to global values combines the right terms must hold for every data set, including those where some entropies are undefined.", "anchors": ["infomeasure/estimators/mutual_information/ansb.py", "infomeasure/estimators/mutual_information/nsb.py", "infomeasure/estimators/transfer_entropy/ansb.py", "infomeasure/estimators/transfer_entropy/nsb.py", "infomeasure/estimators/base.py:_generic_te_from_entropy"]}
{"id": "C84", "title": "MI, CMI, TE and CTE ignore symbol names; MI and CMI ignore the order of the samples", "statement": "Renaming the symbols of any variable (an injective map of the occurring values, also replacing rows of a 2-D variable by codes) leaves mutual_information, conditional_mutual_information, transfer_entropy and conditional_transfer_entropy unchanged, for the dedicated discrete estimators and for every approach computed from its own entropies (Miller-Madow entropies, Zhang, Chao-Shen, Chao-Wang-Jost, Bonachela, Grassberger, Bayes). Reordering the samples of all variables together leaves MI and CMI unchanged.", "quantifier": "all data of any length, number and width of variables, all injective renamings of each variable, all permutations of the samples, all usable history lengths and step sizes, all bases", "why_tests_cant": "the renamings and permutations of every data set cannot be enumerated; a hash- or order-dependent shortcut would only show for particular labels", "anchors": ["infomeasure/estimators/base.py", "infomeasure/estimators/mutual_information/discrete.py", "infomeasure/estimators/transfer_entropy/discrete.py", "infomeasure/estimators/utils/discrete_interaction_information.py"]}
{"id": "C85", "title": "Transfer entropy obeys the chain rule and the history inequalities", "statement": "For the discrete approach: TE from the joint source (X,Z) equals TE from Z plus CTE from X given Z (hence is not smaller than either part); increasing the source history up to the destination history never lowers TE; a series transfers 0 to itself when the destination history is at least the source history; CTE conditioned on the source itself with at least the source history is 0; conditioning on the destination with at most the destination history changes nothing.", "quantifier": "all series of any length, all history lengths and step sizes satisfying the stated orderings, all bases (fewer than 2^32 samples)", "why_tests_cant": "identities and inequalities between values for all series; a test sees finitely many series and cannot exclude a misaligned history for particular lengths", "anchors": ["infomeasure/estimators/transfer_entropy/discrete.py", "infomeasure/estimators/utils/te_slicing.py", "infomeasure/estimators/utils/discrete_transfer_entropy.py"]}
{"id": "C86", "title": "Estimators agree in the limit when the same data is repeated", "statement": "Take any data set (one array or a tuple of arrays) and evaluate entropy on the data written down m times in a row. As m grows, the values of the approaches discrete, miller_madow, shrink, zhang, chao_shen, chao_wang_jost, bonachela, grassberger and bayes (numeric alpha > 0) all converge to the same number: the plug-in entropy of the original data. The plug-in value itself is exactly unchanged for every m >= 1, and the Miller-Madow excess over it is exactly 1/m of the original excess. The mutual information of any number of variables converges to the plug-in mutual information for the same approaches (without shrink). The ansb approach does not have this property: its value grows without bound.", "quantifier": "every data set, every number of variables, every valid base, every alpha > 0, and the limit over all replication counts m", "why_tests_cant": "A limit over all m of functions of digamma and logarithm values for every data set; a test sees finitely many m.", "anchors": ["infomeasure/estimators/entropy/", "infomeasure/estimators/entropy/ansb.py AnsbEntropyEstimator", "infomeasure/estimators/mutual_information/"]}
{"id": "C87", "title": "Gaussian-kernel entropy in any dimension is the entropy of the documented density estimate", "statement": "For samples of any dimension whose covariance is not degenerate (variance in every direction above 1e-10 for two or more dimensions), entropy(data, approach='kernel', kernel='gaussian', bandwidth=h) is the mean of -log of the average of the multivariate normal densities centred on the samples with covariance h^2 times the sample covariance, for one array or a tuple of arrays and for any number of workers. The value lies between log Z and log(N Z) with Z = sqrt((2 pi h^2)^d det C); it does not depend on the order of the samples or of the coordinates; changing units and origins of the coordinates adds the logarithms of the factors; cross-entropy uses the density of the reference and the divergence of a data set from itself is 0. Because the degeneracy threshold is absolute, this fails for small units: every data set of two or more dimensions raises ValueError when expressed in sufficiently large units (small numbers), while one-dimensional data never does.", "quantifier": "every number of samples >= 2, every dimension, every non-degenerate data set, bandwidth, base, number of workers and processors, and every eigenvalue routine that returns eigenpairs of the covariance", "why_tests_cant": "Cholesky factorisation, whitening and determinant have to agree with the density formula for all matrices and dimensions; tests compare single data sets with single precomputed numbers.", "anchors": ["infomeasure/estimators/utils/kde.py gaussian_kernel_densities", "infomeasure/estimators/utils/kde.py parallel_kde_evaluate", "infomeasure/estimators/entropy/kernel.py KernelEntropyEstimator"]}
{"id": "C88", "title": "Gaussian-kernel mutual information and transfer entropy are combinations of Gaussian-kernel entropies", "statement": "With kernel='gaussian', mutual_information of any number of variables of any dimension is the sum of their Gaussian-kernel entropies minus the joint one (also locally), does not depend on the order of the variables, and does not depend on the units and origins of the variables' coordinates as long as the numbers are not reduced. Conditional mutual information of one-dimensional variables, transfer entropy and conditional transfer entropy are the corresponding combinations of four (or more) entropies of the embedded series. The mutual information of a one-dimensional variable with itself is H(X) - (log 2)/2, not H(X), since the joint data are projected on a diagonal.", "quantifier": "every number of variables and samples, every dimension, history length and step, every non-degenerate data set, bandwidth, base, number of workers", "why_tests_cant": "Symmetry and unit invariance of determinants and quadratic forms for all block permutations and scalings; finitely many numerical examples cannot settle it.", "anchors": ["infomeasure/estimators/mutual_information/kernel.py KernelMIEstimator KernelCMIEstimator", "infomeasure/estimators/transfer_entropy/kernel.py KernelTEEstimator KernelCTEEstimator", "infomeasure/estimators/utils/kde.py"]}
{"id": "C89", "title": "Effective transfer entropy subtracts one fresh surrogate", "statement": "For a transfer entropy estimator object, effective_val(method) is result() minus the transfer entropy of one surrogate in which only the source histories are randomised (reordered for 'permutation_test', redrawn for 'bootstrap'). Every call, also between other calls of result, local_vals and statistical_test, uses a surrogate of its own drawn after all earlier ones, and leaves data, flags and results unchanged. For the discrete approach the effective value is at most the transfer entropy and at least it minus the entropy of the destination given its past; for a constant source it is 0. An unknown method is a ValueError, mutual information objects have no effective value.", "quantifier": "all transfer entropy classes, all histories of calls on one object, all draws of the generator; for the discrete approach all series, history lengths, step sizes and bases (fewer than 2^32 samples for the discrete approach)", "why_tests_cant": "which surrogate a call uses depends on the whole history of calls on the object and on the draws; unit tests only run one call with one seed", "anchors": ["infomeasure/estimators/mixins.py: EffectiveValueMixin.effective_val, StatisticalTestingMixin._statistical_test, _test_te", "infomeasure/estimators/base.py: TransferEntropyEstimator, ConditionalTransferEntropyEstimator"]}
{"id": "C90", "title": "Significance tests on numeric data evaluate re-drawn first variables of the same estimator", "statement": "For MI and CMI objects of the kernel, metric (KSG), Renyi and Tsallis approaches a completed statistical_test(n, method) returns n values, each of which is what the functional interface returns for the processed second variable (and condition) together with a re-ordered ('permutation_test') or re-drawn ('bootstrap') first variable; the observed value is that of the original data and data and flags are restored. For transfer entropy each value is the transfer entropy with source histories re-ordered or re-drawn. Where an estimator adds noise every evaluation uses later values of its generator than the one before. The conditional transfer entropy tests do not randomise anything: every value is the observed one, up to the noise.", "quantifier": "all data, offsets, normalisation flags, bandwidths, kernels, orders q, noise levels, numbers of tests, methods and generator states", "why_tests_cant": "the claim ranges over all draws of the generator and over all data; a test sees one seed", "anchors": ["infomeasure/estimators/mixins.py: StatisticalTestingMixin.statistical_test, _test_mi, _test_te", "infomeasure/estimators/mutual_information/{kernel,kraskov_stoegbauer_grassberger,renyi,tsallis}.py", "infomeasure/estimators/transfer_entropy/{kernel,kraskov_stoegbauer_grassberger,renyi,tsallis}.py"]}
{"id": "C91", "title": "Number and kind of data arguments decide which entropy is computed", "statement": "An entropy estimator accepts exactly: one array or sequence (entropy), one tuple of equally long arrays (joint entropy), or two arrays (cross-entropy); a discrete estimator also a DiscreteData object (entropy of its counts). Everything else (nothing, three or more arguments, strings, numbers, nested tuples, tuples of different lengths, tuples or DiscreteData objects in a cross-entropy) raises an error instead of a number.", "quantifier": "all lists of positional arguments of any kind and length, all discrete estimator classes and bases", "why_tests_cant": "the space of argument lists is infinite; tests check a few combinations", "anchors": ["infomeasure/estimators/base.py: EntropyEstimator.__init__, DiscreteHEstimator.__init__, EntropyEstimator._calculate"]}
{"id": "C92", "title": "Step size is subsampling", "statement": "transfer_entropy and conditional_transfer_entropy with step_size=s (s >= 1) give exactly what they give with step_size=1 on every s-th sample x[::s] of each series: the same value, the same local values, the same errors, also with prop_time/offset and with permuted or resampled sources. The samples between the grid points never influence the result. For the ordinal approach this includes the symbolisation; for kernel, metric, Renyi and Tsallis it holds without added noise.", "quantifier": "all series of equal length (1-D or 2-D), all step sizes, history lengths, propagation times, bases, all approaches (discrete: fewer than 2^32 samples)", "why_tests_cant": "unbounded families of series and parameters; a boundary error in the embedding shows only for particular lengths modulo s", "anchors": ["infomeasure/estimators/utils/te_slicing.py: te_observations, cte_observations, _src_dest_slices", "infomeasure/estimators/base.py: TransferEntropyEstimator.__init__", "infomeasure/estimators/utils/ordinal.py: symbolize_series"]}
{"id": "C93", "title": "Normalised numeric (conditional) mutual information does not depend on units", "statement": "With normalize=True, mutual_information and conditional_mutual_information of the kernel, metric, Renyi and Tsallis approaches give the same value, local values and errors when any variable (or the condition) is measured in another unit and from another origin (x -> a x + c with a > 0), for any offset and, because noise is added after the normalisation, for the same noise draws. 2-D variables are rejected with ValueError (in a conditional mutual information among the first two variables and the condition), constant ones give no number.", "quantifier": "all numeric arrays of any length, any number of variables, all positive scale factors and shifts per variable, all estimator parameters", "why_tests_cant": "unbounded families of data and affine maps", "anchors": ["infomeasure/estimators/base.py: MutualInformationEstimator.__init__, ConditionalMutualInformationEstimator.__init__", "infomeasure/estimators/utils/normalize.py: normalize_data_0_1"]}
{"id": "C94", "title": "Conditional mutual information and transfer entropy of numeric data depend on distances only", "statement": "Without normalisation and noise, KSG conditional mutual information is unchanged when all distances within every variable and the condition are multiplied by one common factor (shifts of each variable, a common change of unit, common reflection) and when all samples are reordered alike; KSG transfer entropy and conditional transfer entropy are unchanged when every series is shifted by its own vector and all are multiplied by one non-zero factor, with any propagation time and any permuted or resampled source. The same holds for the box kernel if the bandwidth is given in the new unit (conditional mutual information of m variables grows by (m-2) log of the factor), for the origins of the series in Renyi and Tsallis transfer entropy, and for the unit in Renyi transfer entropy if no embedded destination pasts coincide.", "quantifier": "all numeric series of any length and dimension, all embedding parameters, all shifts and non-zero factors, all neighbour numbers, norms and bases", "why_tests_cant": "unbounded families of data and maps; exact equality of neighbour counts cannot be inferred from samples", "anchors": ["infomeasure/estimators/mutual_information/kraskov_stoegbauer_grassberger.py: KSGCMIEstimator", "infomeasure/estimators/transfer_entropy/kraskov_stoegbauer_grassberger.py: KSGTEEstimator, KSGCTEEstimator", "infomeasure/estimators/mutual_information/kernel.py: KernelCMIEstimator", "infomeasure/estimators/transfer_entropy/kernel.py", "infomeasure/estimators/transfer_entropy/renyi.py, tsallis.py"]}
{"id": "C95", "title": "Ordinal measures see only the order of the values", "statement": "The ordinal entropy, joint entropy, cross-entropy, KLD, JSD, mutual information, conditional mutual information, transfer entropy and conditional transfer entropy of series do not change when each series is transformed by its own strictly increasing function: with stable=True for MI/CMI/TE/CTE for all data and all parameters (errors included), without ties inside a window for every measure and every sorting algorithm. Without ties, entropy, MI, CMI, TE and CTE also do not change when any of the series is turned upside down (strictly decreasing function), and entropy, MI and CMI not when all series are read backwards.", "quantifier": "all series over totally ordered values, all embedding dimensions, step sizes, history lengths and bases, all strictly monotone functions, every legal argsort (fewer than 2^32 samples for MI and transfer entropies)", "why_tests_cant": "the invariance is over all transformations and all series; a test applies a few functions to a few samples", "anchors": ["infomeasure/estimators/utils/ordinal.py:symbolize_series", "infomeasure/estimators/entropy/ordinal.py:OrdinalEntropyEstimator", "infomeasure/estimators/mutual_information/ordinal.py", "infomeasure/estimators/transfer_entropy/ordinal.py"]}
{"id": "C96", "title": "Divergences as API calls: approach names, delegation, refusals", "statement": "kld(p, q, approach, **kw) equals cross_entropy(p, q, approach, **kw) minus entropy(p, approach, **kw) and fails when and as those fail, in that order; an unknown or missing approach is a ValueError. jsd(*data, approach, **kw) supports exactly the approach names discrete, bayes, shrink/js, ordinal/symbolic/permutation and kernel (any case): for every other name, including names valid for entropies, and for data that are not arrays or lists, it raises ValueError before any estimator is built; for the distribution approaches it combines the estimators' dictionaries and values, for kernel it is the entropy of the pooled data minus the mean entropy. With discrete, Miller-Madow and Bayes the KLD is the one of C27 and with discrete, shrink and Bayes the JSD is the one of C28 for all arrays; with the other count-based estimators KLD never returns a number and raises TheoreticalInconsistencyError on usable data.", "quantifier": "all data, approach arguments, keyword arguments and behaviours of the estimator classes", "why_tests_cant": "the delegation has to hold for every approach name, keyword set and data kind, including every failure", "anchors": ["infomeasure/composite_measures/kld.py:kullback_leiber_divergence", "infomeasure/composite_measures/jsd.py:jensen_shannon_divergence", "infomeasure/estimators/functional.py:get_estimator_class"]}
{"id": "C97", "title": "Keyword arguments: which are taken, where they arrive, what is refused", "statement": "For every measure (entropy, MI, CMI, TE, CTE) and approach there is a fixed list of keyword parameters; a request whose data and values pass all checks is constructed exactly when it names only those, gives the required ones and gives no condition to an unconditional measure, and is a TypeError otherwise. No object is ever constructed from other keywords. Each given value arrives unchanged at the class that works with it (history lengths, propagation time, step size, offset, normalisation, condition, base, seed, number of workers), or its documented default does. normalize is refused by the discrete, Miller-Madow and ordinal estimators. A seed given to MI, CMI, TE, CTE reaches the random generator for every approach. Negative: no entropy estimator takes a seed, although the nearest-neighbour entropy draws noise; with a DiscreteData object the parameter-free discrete entropies silently take any keyword.", "quantifier": "all measures, approaches, keyword names and values, all outcomes of the data checks", "why_tests_cant": "names and values are arbitrary and there are 80 constructor chains of four to seven methods; tests try single keywords of single estimators", "anchors": ["infomeasure/estimators/base.py", "infomeasure/estimators/mixins.py", "infomeasure/estimators/entropy", "infomeasure/estimators/mutual_information", "infomeasure/estimators/transfer_entropy", "infomeasure/estimators/functional.py"]}
{"id": "C98", "title": "Time-shift arguments: alias, exclusive, refused by the conditional measures", "statement": "For every transfer entropy approach (kernel, metric/KSG, Renyi, Tsallis, discrete, Miller-Madow, the entropy combinations, ANSB, NSB), every data set and all other arguments: prop_time and offset are interchangeable names of one integer shift, giving both (neither None nor 0) is refused, so is a non-integer shift, series of unequal length, or a shift with a non-integer step_size; asking for shift p >= 0 equals dropping the last p*step samples of the source and the first p*step of the destination by hand (for -p the other way round). Conditional transfer entropy refuses every shift and every length mismatch with ValueError; conditional mutual information of numeric data refuses every nonzero offset.", "quantifier": "all approaches, all series (any lengths), all values of prop_time, offset, step_size, all other keyword arguments, all source randomisations", "why_tests_cant": "Tests try a couple of (prop_time, offset) pairs with one approach; the claim ranges over all argument combinations and approaches.", "anchors": ["infomeasure/estimators/base.py:TransferEntropyEstimator.__init__", "infomeasure/estimators/base.py:ConditionalTransferEntropyEstimator.__init__", "infomeasure/estimators/base.py:ConditionalMutualInformationEstimator.__init__"]}
{"id": "C99", "title": "Cross-entropy of symbols: value, Gibbs' inequality, invariances", "statement": "entropy(p, q, approach) with approach discrete, miller_madow, bayes or ordinal sums -p ln q over the values (ordinal: patterns) that occur in both samples, with the empirical (discrete, Miller-Madow plus its correction, ordinal) or posterior (Bayes) probabilities. It is finite and never negative, it equals the entropy of p when both samples have equal frequencies, it is at least the entropy of p whenever every value of p occurs in q (equality exactly for equal distributions), it depends neither on the order of the samples nor on the names of the values (renamed alike), and another base rescales it. Refuted: without a common value it is 0, and with values of p missing in q it may be below the entropy of p.", "quantifier": "all pairs of non-empty integer sequences of any lengths and alphabets, all usable bases, all Bayesian concentration parameters alpha > 0, all injective renamings and permutations, all real series with enough samples (ordinal)", "why_tests_cant": "An inequality and an identity over all pairs of samples; tests compare a few arrays.", "anchors": ["infomeasure/estimators/entropy/discrete.py:_cross_entropy", "infomeasure/estimators/entropy/miller_madow.py:_cross_entropy", "infomeasure/estimators/entropy/bayes.py:_cross_entropy", "infomeasure/estimators/entropy/ordinal.py:_cross_entropy", "infomeasure/estimators/base.py:EntropyEstimator._calculate"]}
{"id": "C100", "title": "Discrete measures are stable under a few changed samples", "statement": "Let one_change(n) = (1 + ln n)/n. Replacing m of the n sample points (rows of an array or of a tuple) changes entropy(..., approach='discrete') by at most m*one_change(n) nats; inserting one more sample point changes it by at most (1 + ln(n+1))/n. The Miller-Madow entropy changes by at most m*(one_change(n) + 1/(2n)). Two-variable MI changes by at most 3*m*one_change(n) (2*m if only one variable changes), two-variable CMI by at most 4*m*one_change(n). With R embedded rows, m changed values of the source change the transfer entropy by at most 2*src_hist_len*m*one_change(R), m changed values of the destination by at most (4*dest_hist_len+2)*m*one_change(R). one_change(n) tends to 0, and a single change can move the entropy by more than (ln n)/n, so the order of the bound is right. Changing m of all the sample points of k equally long samples (n each) changes jensen_shannon_divergence by at most m*(one_change(n*k) + one_change(n)/k); mutual information of three and more non-constant records by at most (changed entries + changed rows)*one_change(n). Changing mx, my, mz values of source, destination and condition changes the conditional transfer entropy over R embedded rows by at most (2*src_hist_len*mx + (4*dest_hist_len+2)*my + 4*cond_hist_len*mz)*one_change(R). Changing m of the values of a series changes at most embedding_dim*m of its ordinal patterns, hence the ordinal entropy over w windows by at most embedding_dim*m*one_change(w), whatever the sizes of the changes; and the ordinal mutual information of two series by at most 2*embedding_dim*(mx+my)*one_change(w). The ordinal transfer entropy over R embedded rows moves by at most embedding_dim*(2*src_hist_len*mx+(4*dest_hist_len+2)*my)*one_change(R). The ordinal conditional transfer entropy moves by at most embedding_dim*(2*src_hist_len*mx+(4*dest_hist_len+2)*my+4*cond_hist_len*mz)*one_change(R).", "quantifier": "all records, all lengths, all sets of changed positions and new values, all history lengths and step sizes, all bases greater than one (fewer than 2^32 samples); for the ordinal measures all embedding dimensions, steps and argsort kinds", "why_tests_cant": "a worst case over all records and all replacements; tests see a few", "anchors": ["infomeasure/estimators/entropy/discrete.py:DiscreteEntropyEstimator", "infomeasure/estimators/entropy/miller_madow.py", "infomeasure/estimators/mutual_information/discrete.py", "infomeasure/estimators/transfer_entropy/discrete.py", "infomeasure/estimators/entropy/ordinal.py", "infomeasure/estimators/mutual_information/ordinal.py", "infomeasure/estimators/transfer_entropy/ordinal.py"]}
{"id": "C101", "title": "Data arguments of (conditional) mutual information must fit together", "statement": "mutual_information raises ValueError (TypeError for offset=None) for every approach when fewer than two variables are given, when their lengths differ, or when an offset is combined with more than two variables; conditional_mutual_information gives no number for any approach when fewer than two variables are given or when one of the variables, however many, has another length than the condition, with one exception: the ordinal approach with embedding_dim=1 returns 0 without looking at the length of a third variable.", "quantifier": "all approaches, bases, keyword values, numbers of variables, array contents and shapes, offsets", "why_tests_cant": "the check in the constructor compares the first two variables only; whether every later code path catches a wrong length depends on the number of variables and the approach, an unbounded set of combinations", "anchors": ["infomeasure/estimators/base.py: MutualInformationEstimator.__init__, ConditionalMutualInformationEstimator.__init__", "infomeasure/estimators/utils/discrete_interaction_information.py", "infomeasure/estimators/mutual_information/ordinal.py"]}
{"id": "C102", "title": "Local values: available, or refused with one definite exception", "statement": "For the discrete entropy approaches, local_vals() raises exactly what result() raises when there is no global value; when there is one, approaches discrete, miller_madow, shrink, zhang and grassberger never refuse local values, bayes and chao_shen raise io.UnsupportedOperation, and chao_wang_jost, ansb, bonachela and nsb raise TheoreticalInconsistencyError. MI, CMI, TE and CTE built from these entropies yield local values (an array) in the first case and only a number otherwise.", "quantifier": "every approach and its parameters, base, data array or tuple, number of variables and TE embedding", "why_tests_cant": "whether an exception or a value comes out depends on data, base and approach through several layers of try/except; a test covers single combinations", "anchors": ["infomeasure/estimators/base.py: Estimator.local_vals, _extract_local_values, _generic_mi_from_entropy, _generic_cmi_from_entropy, _generic_te_from_entropy, _generic_cte_from_entropy", "infomeasure/estimators/entropy/*.py: _extract_local_values"]}
{"id": "C103", "title": "Pooling samples", "statement": "For discrete samples d1..dm that are concatenated, entropy(concat) lies between the length-weighted mean of the entropies of the parts and that mean plus the entropy of the sample labels; the lower bound is attained exactly when all parts have the same relative frequencies, the upper exactly when no symbol occurs in two parts. The joint entropy of (labels, concat) is entropy(labels) plus the weighted mean, mutual_information(labels, concat) is the gain over the weighted mean, and for equally long samples this mutual information is their jensen_shannon_divergence.", "quantifier": "every nonempty list of nonempty integer samples (any sizes and alphabets), every base > 1 (fewer than 2^32 samples where mutual information is computed)", "why_tests_cant": "The equality conditions and bounds hold for all lists of samples; tests compare a few fixed arrays.", "anchors": ["infomeasure/estimators/entropy/discrete.py:DiscreteEntropyEstimator._simple_entropy", "infomeasure/estimators/entropy/discrete.py:DiscreteEntropyEstimator._joint_entropy", "infomeasure/estimators/mutual_information/discrete.py:DiscreteMIEstimator._calculate", "infomeasure/composite_measures/jsd.py:jensen_shannon_divergence"]}
{"id": "C104", "title": "Merging symbols never increases entropy, KLD or JSD", "statement": "Applying one function f to every symbol never increases discrete entropy(x), kullback_leiber_divergence(p, q) (for p's symbols among q's) or jensen_shannon_divergence(x1, ..., xn). The entropy is unchanged exactly when f is one-to-one on the occurring symbols; the KLD exactly when the frequency ratio of each symbol of p equals that of its image; the JSD exactly when that holds for every sample against the mixture.", "quantifier": "every function on symbols, every data set, every base > 1", "why_tests_cant": "Quantifies over all functions and data sets, and characterises equality.", "anchors": ["infomeasure/composite_measures/kld.py:kullback_leiber_divergence", "infomeasure/composite_measures/jsd.py:jensen_shannon_divergence", "infomeasure/estimators/entropy/discrete.py:DiscreteEntropyEstimator"]}
{"id": "C105", "title": "Divergences bound the differences of frequencies (Pinsker); MI is a divergence", "statement": "For every event, twice the squared difference of its relative frequencies in p and q is at most the discrete KLD in nats, hence so is twice the squared total variation distance; the KLD is at most ln len(q). For n samples every such squared difference is at most n times the JSD in nats. Discrete mutual_information(x, y) equals the discrete KLD of the observed pairs from all pairs under any one-to-one coding of pairs, and bounds every event on pairs the same way.", "quantifier": "every event (set of symbols or of pairs), every data set, every base > 1 (fewer than 2^32 samples for mutual information)", "why_tests_cant": "Inequalities over all events and all data sets.", "anchors": ["infomeasure/composite_measures/kld.py:kullback_leiber_divergence", "infomeasure/composite_measures/jsd.py:jensen_shannon_divergence", "infomeasure/estimators/mutual_information/discrete.py:DiscreteMIEstimator"]}
{"id": "C106", "title": "Entropy, MI and TE as best prediction losses; Fano", "statement": "Discrete entropy(x) is the smallest average logarithmic loss of any predictor of x without context; mutual_information(x, y) is the reduction of that smallest loss when y is known; transfer_entropy is the reduction when the source's past is added to the destination's own past. MI equals entropy(x) exactly when y determines x; TE equals the whole remaining loss exactly when both pasts determine the next value and is 0 when the own past does. Every rule guessing x from y errs at least as often as Fano's inequality demands.", "quantifier": "every predictor / guessing rule, every data set, every history lengths and step size, every base > 1 (fewer than 2^32 samples)", "why_tests_cant": "An optimum over all predictors cannot be tested.", "anchors": ["infomeasure/estimators/entropy/discrete.py:DiscreteEntropyEstimator", "infomeasure/estimators/mutual_information/discrete.py:DiscreteMIEstimator", "infomeasure/estimators/transfer_entropy/discrete.py:DiscreteTEEstimator"]}
{"id": "C107", "title": "Discrete entropy in double precision", "statement": "Evaluated in IEEE double precision with logarithms of relative error eps and any order of summation, entropy(x, approach='discrete') differs from the exact plug-in entropy by at most a stated relative factor (number of nested additions + 2 roundings + logarithm error) plus an absolute error of two unit roundoffs in the chosen unit; it is never negative and is 0 exactly for constant data. Each local value is non-negative, 0 exactly when all points are equal, and within the corresponding bound. Reordering the sample or renaming the symbols in an order-preserving way changes no bit; any other renaming changes the result by at most twice the bound.", "quantifier": "every accepted input with at most 2^53 points, every base above 1 in the range of doubles, every summation order, every logarithm implementation with relative error up to 1/10", "why_tests_cant": "Rounding errors depend on data, base, library and summation order; tests sample a few and compare with a tolerance.", "anchors": ["infomeasure/estimators/entropy/discrete.py:DiscreteEntropyEstimator", "infomeasure/utils/data.py:DiscreteData", "infomeasure/estimators/base.py:Estimator._log_base"]}
{"id": "C108", "title": "Estimator objects report what the function call returns", "statement": "An estimator object for the discrete mutual information, conditional mutual information, transfer entropy or conditional transfer entropy reports, in result(), global_val() and local_vals(), exactly the value and the local values the one-shot function returns for the same data and parameters, whatever sequence of queries, statistical tests and effective-value computations was made on the object before; the mean of the reported local values is the reported value.", "quantifier": "every data set, base, lag and history lengths, every finite sequence of completed calls on the object, every random draw (fewer than 2^32 samples)", "why_tests_cant": "Histories of calls and random draws are unbounded; tests call each method once.", "anchors": ["infomeasure/estimators/base.py:Estimator.result", "infomeasure/estimators/base.py:Estimator.local_vals", "infomeasure/estimators/base.py:Estimator.global_val", "infomeasure/estimators/transfer_entropy/discrete.py:DiscreteTEEstimator", "infomeasure/estimators/mutual_information/discrete.py:DiscreteMIEstimator"]}
{"id": "C109", "title": "Mutual information, conditional mutual information and transfer entropies in double precision", "statement": "Computed in IEEE double precision from integer counts, for any base above one, any logarithm routines of relative error at most eps and any order of summation, mutual_information, conditional_mutual_information, transfer_entropy and conditional_transfer_entropy with approach='discrete' return the exact information up to (a small multiple of the log and rounding error and the summation depth) times the logarithm of the number of samples; two-variable mutual information is never negative and is exactly 0 when a variable is constant; reordering all variables' samples together changes no bit of the result.", "quantifier": "all integer samples with fewer than 2^32 entries, all history lengths and steps, all bases above 1, all summation orders, all log routines with relative error at most eps <= 1/10", "why_tests_cant": "rounding errors depend on every input, and tests compare with a fixed tolerance on chosen data; the terms of the sum have mixed signs and almost cancel for nearly independent data, which is the worst case for rounding and is not found by sampling", "anchors": ["infomeasure/estimators/utils/discrete_interaction_information.py:mutual_information_global", "infomeasure/estimators/utils/discrete_interaction_information.py:conditional_mutual_information_global", "infomeasure/estimators/utils/discrete_transfer_entropy.py", "infomeasure/estimators/base.py:_log_base"]}
{"id": "C110", "title": "Local values are the pointwise information of each sample, in sample order", "statement": "local_vals() of a discrete or ordinal estimator returns one value per sample, and the t-th value is the pointwise quantity of sample t: for entropy -log p(x_t) (plus the constant correction for Miller-Madow, the harmonic-number difference for Zhang, and the shrunk probability for shrinkage), for mutual information log p(x_t,y_t)/(p(x_t)p(y_t)), for several variables log p(row_t)/prod_i p(x_i,t), for conditional mutual information and transfer entropies log p(x,y,z)p(z)/(p(x,z)p(y,z)) at the t-th (lagged) sample; with an offset the samples are paired as documented; and applying any reordering of the samples to all variables reorders the local values in exactly the same way.", "quantifier": "all integer samples (1-D and 2-D), all bases, offsets, history lengths, steps, numbers of variables, embedding dimensions and tie rules", "why_tests_cant": "tests check that local values average to the global one on chosen data; a permutation of the values, or an exchange of two marginals on some samples only, keeps the average and is seen only by a pointwise statement over all inputs", "anchors": ["infomeasure/estimators/utils/discrete_interaction_information.py:mutual_information_local", "infomeasure/estimators/utils/discrete_interaction_information.py:conditional_mutual_information_local", "infomeasure/estimators/utils/ordinal.py", "infomeasure/estimators/mutual_information/ordinal.py:_extract_local_values", "infomeasure/estimators/transfer_entropy/ordinal.py:_calculate", "infomeasure/estimators/entropy/discrete.py:_extract_local_values", "infomeasure/estimators/entropy/zhang.py", "infomeasure/estimators/entropy/miller_madow.py"]}
{"id": "C111", "title": "Arrays of the caller are never written to, and shared memory between arguments is invisible", "statement": "A call of a KSG, Renyi, Tsallis or Kozachenko-Leonenko measure (mutual information, conditional mutual information, transfer entropy, conditional transfer entropy, entropy, cross-entropy), including those that add noise in place, leaves every array that existed before the call exactly as it was, whether it returns or raises; its result depends only on the numbers in the arguments: passing the same array twice, overlapping views, columns or reversed slices of one matrix, or lists instead of arrays gives the same result as passing separate copies; a call does not change the result of later calls on the same arrays; an estimator object built from arrays without normalisation reads them when the result is first asked for, and one built with normalisation keeps its own copies, so that later writes by the caller do not reach it.", "quantifier": "all memories, all arrays as arbitrary (overlapping, strided, repeated) views, all numbers of variables, noise levels, parameters and draws of the random generator", "why_tests_cant": "a missing copy is invisible unless a test compares the inputs before and after, with noise, with exactly the kind of view that is not copied on the way; the combinations of views and of earlier and later calls are unbounded", "anchors": ["infomeasure/estimators/base.py:MutualInformationEstimator.__init__", "infomeasure/estimators/base.py:_generic_mi_from_entropy", "infomeasure/estimators/base.py:_generic_cmi_from_entropy", "infomeasure/estimators/base.py:_generic_te_from_entropy", "infomeasure/estimators/mutual_information/kraskov_stoegbauer_grassberger.py:_calculate", "infomeasure/estimators/transfer_entropy/kraskov_stoegbauer_grassberger.py:_calculate", "infomeasure/estimators/entropy/kozachenko_leonenko.py:_simple_entropy", "infomeasure/estimators/utils/array.py:assure_2d_data"]}
{"id": "C112", "title": "Results are reproducible from an integer seed, whatever else the program does", "statement": "An estimator object made with an integer seed answers every sequence of result, local_vals, calculate, statistical_test and effective_val calls (also interrupted ones) exactly as it would if it were the only object in the program: the answers depend only on class, arguments, seed and the calls on this object, not on other objects, their tests, generators the user draws from, or the entropy of the operating system. A new Generator made from the integer gives the same answers as the integer as long as nothing else uses it. The first result of a KSG, Renyi or Tsallis estimator with seed z is the estimate with the noise of the generator of z. The values (not the tests) of discrete MI and TE objects do not depend on seed or sharing at all. A negative seed is a ValueError. Objects without a seed, and objects that were given one and the same Generator, have no such guarantee: their test values depend on what else the program does.", "quantifier": "all programs (sequences of constructor calls, method calls on any object, generators made and used by the user), all seeds, all interrupts, all streams numpy may attach to a seed, all estimator classes (discrete values: fewer than 2^32 samples)", "why_tests_cant": "a test runs one program with one seed; a generator shared by accident (module-level generator, default argument, a Generator passed on) only shows when calls on several objects are interleaved", "anchors": ["infomeasure/estimators/mixins.py: RandomGeneratorMixin.__init__, StatisticalTestingMixin._test_mi, _test_te", "infomeasure/estimators/utils/te_slicing.py: _te_observations", "infomeasure/estimators/base.py: noise in _generic_*_from_entropy"]}
{"id": "C113", "title": "Renyi and Tsallis estimates are continuous in their order at 1", "statement": "If no sample coincides with k or more others, the results of entropy, cross_entropy, mutual_information, conditional_mutual_information, transfer_entropy and conditional_transfer_entropy with approach 'renyi' (parameter alpha) are finite for every order near 1 and tend to the result for order 1 as the order tends to 1; so do those of approach 'tsallis' (parameter q) with base 'e'. With another base the Tsallis results near order 1 tend to the result at order 1 converted to nats, that is, they jump at order 1. With coinciding samples the Renyi entropy at order 1 is finite but the values near order 1 grow without bound.", "quantifier": "all samples (any number, dimension and joint or multiple variables), k, bases, history lengths, step sizes, and all orders in a neighbourhood of 1", "why_tests_cant": "a limit is a statement about infinitely many orders, and the order-1 branch uses a formula (digamma) that has nothing in common with the branch for other orders (a ratio of gamma values)", "anchors": ["infomeasure/estimators/utils/exponential_family.py: exponential_family_iq, exponential_family_i1", "infomeasure/estimators/entropy/renyi.py: RenyiEntropyEstimator", "infomeasure/estimators/entropy/tsallis.py: TsallisEntropyEstimator", "infomeasure/estimators/mutual_information/renyi.py", "infomeasure/estimators/transfer_entropy/renyi.py"]}
{"id": "C114", "title": "How Renyi and Tsallis estimates depend on their order", "statement": "entropy with approach 'renyi' is, for every order alpha in (0, k+1) including 1, the difference of a part that depends on the samples and a gamma-function part that depends only on k and alpha. The data part never increases with the order and stays between the values it has for the smallest and the largest k-th neighbour distance, so the estimate is bounded by these distances at every order. The estimate itself is not monotone in the order, although Renyi and Tsallis entropies of a distribution are non-increasing: the gamma part also decreases, so that for equidistant samples the estimate never decreases with the order, and for two samples a quarter apart both the Renyi and the Tsallis estimate of order 3/2 exceed those of order 1/2.", "quantifier": "all samples (any number and dimension) whose k-th neighbour distances are positive, all k, bases, and all pairs of orders below k+1, on either side of 1", "why_tests_cant": "it compares the results for every pair of orders, including the separately coded order 1; the inequality comes from the convexity of log-sum-exp and of the log of the gamma function", "anchors": ["infomeasure/estimators/utils/exponential_family.py: exponential_family_iq, exponential_family_i1", "infomeasure/estimators/entropy/renyi.py: RenyiEntropyEstimator", "infomeasure/estimators/entropy/tsallis.py: TsallisEntropyEstimator"]}
{"id": "C115", "title": "Small changes of the data, and vanishing noise, change nearest-neighbour estimates only a little", "statement": "If no sample coincides with k or more others, the nearest-neighbour entropy (approach 'metric'), joint entropy, and the nearest-neighbour, Renyi and Tsallis cross-entropy (no sample coinciding with k or more reference points) and the Renyi and Tsallis entropy, mutual information, conditional mutual information, (conditional) transfer entropy estimates are continuous in the data: for every tolerance all data sets close enough to the given one give a number within the tolerance. If moreover no neighbour distances are tied, the KSG mutual information (any norm), conditional mutual information and (conditional) transfer entropy (maximum norm, the default) even return exactly the same number for all data close enough. Adding Gaussian noise through noise_level therefore does no harm in the limit: as noise_level tends to 0 the estimates tend to the ones without noise, and the KSG estimates are equal to them for all small levels, whatever the random numbers are. With ties both fail: there are data for which arbitrarily small changes (or arbitrarily small noise) move the KSG mutual information by a fixed amount.", "quantifier": "all samples (any number, dimension, number of variables), all k, bases, orders, norms, transfer entropy parameters, all tolerances, all nearby data and all streams of random numbers", "why_tests_cant": "it is a for-all-eps-exists-delta statement over all data in a neighbourhood; tests can only try single perturbations", "anchors": ["infomeasure/estimators/entropy/kozachenko_leonenko.py: KozachenkoLeonenkoEntropyEstimator", "infomeasure/estimators/utils/exponential_family.py", "infomeasure/estimators/mutual_information/kraskov_stoegbauer_grassberger.py", "infomeasure/estimators/transfer_entropy/kraskov_stoegbauer_grassberger.py", "infomeasure/estimators/base.py: MutualInformationEstimator, ConditionalMutualInformationEstimator (noise_level)", "infomeasure/estimators/mutual_information/renyi.py", "infomeasure/estimators/mutual_information/tsallis.py"]}
{"id": "C116", "title": "Small changes of the data: kernel estimates", "statement": "With the box kernel, if no two samples are exactly half a bandwidth apart in any coordinate, all data sets close enough to the given one give exactly the same entropy, joint entropy, mutual information, conditional mutual information, (conditional) transfer entropy, cross-entropy, Kullback-Leibler and Jensen-Shannon divergence. If two samples are exactly half a bandwidth apart the result can jump: for the two samples 0 and h/2 moving the second away by any amount, however small, raises the entropy by ln 2. With the Gaussian kernel (one-dimensional data, not all equal) the entropy, cross-entropy and Kullback-Leibler divergence are continuous in the data: every tolerance is met by all data close enough.", "quantifier": "all samples (any number and, for the box kernel, dimension; one-dimensional variables for conditional mutual information), bandwidths, bases, numbers of workers, transfer entropy parameters and shuffles, and all nearby data", "why_tests_cant": "a statement about all data in a neighbourhood; tests can only try single perturbations", "anchors": ["infomeasure/estimators/utils/kde.py: kde_probability_density_function", "infomeasure/estimators/entropy/kernel.py: KernelEntropyEstimator", "infomeasure/estimators/mutual_information/kernel.py", "infomeasure/estimators/transfer_entropy/kernel.py", "infomeasure/composite_measures/kld.py", "infomeasure/composite_measures/jsd.py"]}
{"id": "C117", "title": "Estimates converge as a record grows", "statement": "Take records of growing length over a finite alphabet whose relative frequencies converge to a distribution p (for instance longer and longer prefixes of one stream). Then the plug-in, Miller-Madow, shrinkage, Zhang, Chao-Shen, Chao-Wang-Jost, Bonachela, Grassberger and Bayesian (fixed concentration) entropies of any usable input converge to the Shannon entropy of p, in the unit of the base; mutual information of two variables under these approaches (shrinkage excepted) converges to the mutual information of p, and discrete transfer entropy to the conditional mutual information of the limiting window distribution. In particular, whatever word a record repeats and wherever it is cut off, these entropies converge to the plug-in value of one period. Likewise the discrete cross-entropy and Kullback-Leibler divergence of two records converge to those of the limits when the second limit is positive on the alphabet, the Jensen-Shannon divergence of any number of records to that of the limits, and discrete conditional mutual information and conditional transfer entropy to the conditional mutual information of the limiting joint distribution; for records that each repeat a word the divergences converge to those of the words.", "quantifier": "all alphabets, distributions (including symbols of probability zero), sequences of records, bases, concentrations; all history lengths and step sizes for transfer entropy; all repeated words", "why_tests_cant": "a limit over an unbounded sequence of records; tests evaluate finitely many of them", "anchors": ["infomeasure/estimators/entropy/discrete.py", "infomeasure/estimators/entropy/miller_madow.py", "infomeasure/estimators/entropy/shrink.py", "infomeasure/estimators/entropy/zhang.py", "infomeasure/estimators/entropy/chao_shen.py", "infomeasure/estimators/entropy/chao_wang_jost.py", "infomeasure/estimators/entropy/bonachela.py", "infomeasure/estimators/entropy/grassberger.py", "infomeasure/estimators/entropy/bayes.py", "infomeasure/estimators/mutual_information/discrete.py", "infomeasure/estimators/transfer_entropy/discrete.py", "infomeasure/composite_measures/kld.py:kullback_leiber_divergence", "infomeasure/composite_measures/jsd.py:jensen_shannon_divergence"]}
{"id": "C118", "title": "On well separated codes the box-kernel estimates are the discrete estimates", "statement": "Replace every symbol of discrete data by a number so that different symbols get numbers more than half a bandwidth apart. Then the box-kernel estimates of the encoded data are the discrete plug-in estimates of the symbols: mutual information, conditional mutual information, transfer entropy (arrays of any dimension, any history lengths and step size), conditional transfer entropy, Jensen-Shannon divergence of samples of equal size and Kullback-Leibler divergence (when every value of p occurs in q) agree exactly, and (joint) entropies and cross-entropies differ only by the volume term: the number of coordinates (times the share of covered samples, for the cross-entropy) times log h. If the numbers are closer than that, the agreement can fail.", "quantifier": "all symbol data, encodings separated by more than half the bandwidth, bandwidths, bases, worker counts, sample sizes, dimensions, history lengths and step sizes", "why_tests_cant": "an identity between two independent implementations over all data sets and all separated encodings; a test can only compare them on particular data", "anchors": ["infomeasure/estimators/utils/kde.py", "infomeasure/estimators/entropy/kernel.py", "infomeasure/estimators/entropy/discrete.py", "infomeasure/estimators/mutual_information/kernel.py", "infomeasure/estimators/mutual_information/discrete.py", "infomeasure/estimators/transfer_entropy/kernel.py", "infomeasure/estimators/transfer_entropy/discrete.py"]}
{"id": "C119", "title": "The box-kernel estimate is a probability density", "statement": "For every data set and bandwidth the value kde_probability_density_function returns for the box kernel at a single query point is a non-negative function of that point, at most 1/h^d, zero outside any cube that contains the data with a margin of half a bandwidth, and its integral over such a cube is one. Estimates are consistent: integrating the estimate for joint points over the second block of coordinates gives exactly the estimate for the first block alone.", "quantifier": "all data sets of any size and dimension, all bandwidths, query points, worker counts, cubes around the data", "why_tests_cant": "an integral over all query points, for every data set; a test evaluates the estimate at finitely many points", "anchors": ["infomeasure/estimators/utils/kde.py"]}
{"id": "C120", "title": "Cross-entropy, Kullback-Leibler and Jensen-Shannon divergence in double precision", "statement": "Computed in IEEE double precision from integer counts, for any base above one, logarithm routines of relative error at most eps, any order of summation and any iteration order of Python sets, with approach='discrete': cross_entropy is the exact value over the shared symbols up to an explicit rounding bound, never negative, and 0 exactly when every shared symbol is the only value of the reference sample; kullback_leiber_divergence is the exact divergence up to an explicit bound and so never more negative than that bound; with ascending set iteration it is exactly 0 for samples with the same counts; jensen_shannon_divergence of up to 2^20 samples is the exact divergence up to an explicit bound that grows with the number of samples and the summation depth.", "quantifier": "all integer samples with at most 2^53 entries, up to 2^20 samples, all bases above 1, all summation and set orders, all log routines with relative error at most eps <= 1/10", "why_tests_cant": "a bound on accumulated rounding for every sample, summation tree and hash order; a test compares a few values with a tolerance", "anchors": ["infomeasure/estimators/entropy/discrete.py:DiscreteEntropyEstimator._cross_entropy", "infomeasure/composite_measures/kld.py:kullback_leiber_divergence", "infomeasure/composite_measures/jsd.py:jensen_shannon_divergence"]}
{"id": "C121", "title": "Distances between records computed from entropies are metrics", "statement": "The variation of information 2*entropy((x,y)) - entropy(x) - entropy(y) of discrete records is symmetric, non-negative, zero exactly when each record determines the other, obeys the triangle inequality, and equals entropy(x) + entropy(y) - 2*mi(x,y) = entropy((x,y)) - mi(x,y); divided by entropy((x,y)) it is Rajski's distance: on non-constant records a metric with values in [0,1], 0 exactly when the records determine each other and 1 exactly when they are empirically independent.", "quantifier": "every three records of equal length, every base >1 or 'e' (mi: fewer than 2^32 samples)", "why_tests_cant": "Triangle inequalities and exact equality cases over all data sets.", "anchors": ["infomeasure/estimators/entropy/discrete.py:DiscreteEntropyEstimator", "infomeasure/estimators/mutual_information/discrete.py:DiscreteMIEstimator", "infomeasure/utils/types.py", "infomeasure/estimators/functional.py:entropy"]}
{"id": "C122", "title": "Joint entropies and mutual information when records are added or left out", "statement": "Adding a record to a tuple never lowers entropy(tuple,'discrete'), raises it by at most the record's own entropy, and leaves it unchanged exactly when the record is determined by the others; the more records are already present the less a further one adds (submodularity); (m-1) times the joint entropy of m records is at most the sum of the joint entropies of all but one (Han's inequality). The mutual information of non-constant records grows by exactly H(new) + H(others) - H(all) when a record is added, hence never falls, and stays equal exactly when the new record is empirically independent of the joint others.", "quantifier": "every tuple of arrays of every common length, every base >1 or 'e' (mi: n^m < 2^64, no constant record; with a constant record see C13)", "why_tests_cant": "Inequalities and exact equality cases over all numbers of records and all data.", "anchors": ["infomeasure/estimators/entropy/discrete.py:DiscreteEntropyEstimator", "infomeasure/estimators/mutual_information/discrete.py:DiscreteMIEstimator", "infomeasure/estimators/utils/discrete_interaction_information.py:mutual_information_global"]}
{"id": "C123", "title": "Divergences of pooled samples", "statement": "For samples d1..dm concatenated to a pool and any reference q, the length-weighted mean of kld(di,q) equals kld(pool,q) plus the weighted mean of kld(di,pool) (compensation identity, also where p has symbols unknown to q). Hence kld(pool,q) never exceeds the mean, with equality exactly when all parts have the same relative frequencies; among the references that know all symbols the pool is nearest to the parts, uniquely up to relative frequencies; and for equally long samples jensen_shannon_divergence is their mean divergence from the pool.", "quantifier": "every nonempty list of nonempty integer samples, every nonempty reference, every base > 1 (identity: every usable base)", "why_tests_cant": "Identities, inequalities and equality cases over all lists of samples.", "anchors": ["infomeasure/composite_measures/kld.py:kullback_leiber_divergence", "infomeasure/composite_measures/jsd.py:jensen_shannon_divergence", "infomeasure/estimators/entropy/discrete.py:DiscreteEntropyEstimator"]}
{"id": "C124", "title": "Interaction information of three records", "statement": "mi(x,y) - cmi(x,y|z) is the same whichever of the three records is taken as the condition, and lies between minus the smallest of the three conditional and the smallest of the three unconditional mutual informations. For non-constant records the mutual information of all three is mi(x,y) + mi(x,z) + cmi(y,z|x), i.e. the sum of the pairwise ones minus the interaction information, and at least each pairwise one.", "quantifier": "every three arrays of equal length, every base >1 or 'e' (fewer than 2^32 samples; mi of three: N^3 < 2^64, no constant record)", "why_tests_cant": "Identities between three different API functions on all data.", "anchors": ["infomeasure/estimators/mutual_information/discrete.py:DiscreteMIEstimator", "infomeasure/estimators/mutual_information/discrete.py:DiscreteCMIEstimator", "infomeasure/estimators/utils/discrete_interaction_information.py:conditional_mutual_information_global"]}
