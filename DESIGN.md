# Formal model of infomeasure in Rocq (Coq 8.16.1)

Source: `/repo` (Python, pinned commit), read as text.  Model and proofs: `rocq/theories`.
Property list: `properties.jsonl`.  Status per property: `MANIFEST.json`.
Wrong-program experiments: `seeded/LOG.jsonl`.

## 1. Trusted base

* Coq's kernel (8.16.1).  No plugin, no kernel flag, no axiom of our own, no functor, nothing admitted.
* Axioms: only the standard library's, as listed by `Print Assumptions` under each theorem.  The full
  table, theorem by theorem, is `ASSUMPTIONS.md` (generated by `tools/assumptions.py`).  Four sets occur:
  - none (closed under the global context): theorems that do not mention reals;
  - `ClassicalDedekindReals.sig_forall_dec`, `FunctionalExtensionality.functional_extensionality_dep`:
    statements about real arithmetic;
  - the same plus `ClassicalDedekindReals.sig_not_dec` (and `Classical_Prop.classic`): statements that use
    decidable comparison of reals or analysis lemmas (`ln`, `exp`, integrals).
* The reading of the Python source: each model definition cites file and lines.
* The reading of library functions (numpy, scipy, pandas-free Python), which are not in `/repo`:
  - `numpy.unique`, `argsort`, `column_stack`, slicing, `array_split`, `percentile(method="linear")`,
    integer dtype wrap-around, `nanmin/nanmax`: modelled as functions, each with a comment;
  - `argsort` without `stable` may order ties arbitrarily: the model takes the sorting routine as an
    argument restricted only by `legal_kind` (returns some sorting permutation), and theorems hold for each;
  - `scipy.spatial.KDTree.query / query_ball_point`: exact k-th smallest Minkowski distance, closed balls
    (`<=`), missing neighbours at infinite distance; `np.nextafter(r, 0)` turns a closed ball into an open one.
    Not modelled: that squaring a denormal radius in scipy may underflow to 0;
  - `scipy.special.digamma` at a positive integer n is `-gamma + sum_{k<n} 1/k` with `gamma` Euler's
    constant, the limit of H_n - ln n (`SpecGamma.euler_gamma_spec`); `gamma` at integers and half-integers is any function
    satisfying the recursion and its two start values (`is_gamma`, hypothesis of the theorems that need it; such a
    function is constructed in `PGamma2`);
  - `scipy.stats.gaussian_kde`: modelled in one dimension (sum of normal densities with Scott-free
    `bw_method`), an oracle in more dimensions;
  - random generators are oracles: permutations, index lists, noise draws are universally quantified.
* Abstractions made everywhere (not repeated in every comment):
  - IEEE floats are exact reals `R`; rounding is modelled only where a property is about it (float64
    rounding of ordinal codes, C30; the discrete entropy and mutual information in double precision, C107,
    C109).  Non-finite floats (`inf`, `nan`) are one poison value `NonFinite`
    of the result type `res`; `log` of a non-positive number, division by zero etc. give `NonFinite`
    explicitly: Coq's total `ln 0 = 0` and `x / 0` are never used as if they were numpy's.  A call with a
    non-finite intermediate value counts as `NonFinite` even if a later step of it would raise or clip it.
  - numpy `uint64` products are modelled with an explicit `mod 2^64`.
  - Python exceptions are values `Raise e` (class only, no message).
  - Array symbols are integers `Z`, rows are `list Z`.  The discrete estimators only compare
    symbols (`==`, `<`), so other ordered label types behave as their order-isomorphic integers.
  - Strings (names of approaches, kernels, priors) are ASCII.
  - Logging and warnings are not modelled.

### What is modelled and what is not

Modelled: `utils/{data,config,types (as used)}.py`, `estimators/{base,mixins,functional}.py`,
`estimators/utils/*` (discrete interaction information, discrete transfer entropy, te_slicing, ordinal, normalize,
unit_ball_volume, kde, array helpers, exponential family), all entropy / MI / CMI / TE / CTE classes for the
approaches discrete, miller_madow, shrink, bayes, zhang, chao_shen, chao_wang_jost, ansb, nsb, bonachela,
grassberger, ordinal, kernel (box and Gaussian), metric/KSG, renyi, tsallis; `composite_measures/{kld,jsd}.py`.
Not modelled: logging and warnings, documentation and benchmark scripts, timing, the
algorithm of `numpy.linalg.eig` (C87/C88 assume it returns eigenpairs; C61-C66 hold for any multi-dimensional Gaussian
kernel function), thread/process scheduling of `workers` beyond "chunks are concatenated in order".

## 2. Structure

`Spec*.v` hold the independent specification (they never mention the model), `M*.v` only model definitions
(each citing the source), `P*.v` proofs, `Props*.v` the property theorems with `Print Assumptions`
and `Example`s showing that the hypotheses are met by concrete data.

| file | content |
|---|---|
| `Res.v` | Results of Python computations: a value, a raised exception, or a non-finite float. |
| `RSum.v` | Finite sums of reals over lists and elementary logarithm inequalities. |
| `Spec.v` | Independent specification: empirical counts and the textbook (plug-in) information measures of finite samples. Nothing here refers to the code model. All quantities are in nats (natural logarithm); a  |
| `Info.v` | Facts about the specification: a sample is a list of points, a random variable is a function on points. Everything is reduced to sums over sample points. |
| `Info2.v` | Textbook facts about the specification, on plain lists. |
| `Ord.v` | Ordered types and the model of [numpy.unique]. |
| `MBase.v` | Model: logarithm bases, arrays, [reduce_joint_space]. |
| `MData.v` | Model: [DiscreteData] (infomeasure/utils/data.py 8-130). |
| `MEntropy.v` | Model: discrete (MLE) and Miller-Madow entropy, cross-entropy, KLD. |
| `SpecBase.v` | Specification vocabulary shared by the property theorems: usable logarithm bases. |
| `PBase.v` | Proofs about bases, [reduce_joint_space] and [DiscreteData]. |
| `Gibbs.v` | Gibbs' inequality and entropy of probability vectors. |
| `PEntropy.v` | Proofs: discrete and Miller-Madow entropies. |
| `PropsEntropy.v` | Property theorems C01-C05 and the discrete/Miller-Madow part of C06. |
| `MMI.v` | Model: discrete mutual information and conditional mutual information (infomeasure/estimators/utils/discrete_interaction_information.py, abbreviated DII). |
| `PCoo.v` | Proofs about the contingency table: cell sums are sums over samples. |
| `PMI.v` | Proofs: discrete mutual information as a combination of entropies. |
| `PMI2.v` | Proofs: mutual information in terms of the specification. |
| `PMI3.v` | Proofs: the Counter-based path for multi-dimensional variables. |
| `PCMI.v` | Proofs: discrete conditional mutual information as a combination of entropies. |
| `PMI4.v` | Proofs: API-level MI/CMI results in terms of the specification. |
| `PCMI2.v` | Proofs: conditional mutual information in terms of the specification. |
| `PMI5.v` | Proofs: MI and CMI at the level of the public functions. |
| `PMI6.v` | Proofs: the documented forms of multi-variable conditional MI; the uint64 wrap-around witness. |
| `PropsMI.v` | Property theorems about discrete mutual information and conditional mutual information. |
| `SpecTE.v` | Specification of the time-delay embedding used by transfer entropy, by time stamps. |
| `MTE.v` | Model: transfer entropy embedding and the discrete (conditional) transfer entropy (infomeasure/estimators/utils/te_slicing.py abbreviated TES, infomeasure/estimators/utils/discrete_transfer_entropy.py |
| `PTE.v` | Proofs: transfer entropy embedding; TE as conditional MI. |
| `PTE2.v` | Proofs: the time-delay embedding, and discrete (conditional) transfer entropy as conditional mutual information of the embedded rows. |
| `PropsTE.v` | Property theorems: transfer entropy (C19-C24, C07, C08, C26, C54). |
| `MGeneric.v` | Model: discrete entropy estimators as objects, and MI / CMI / TE / CTE computed from entropies (infomeasure/estimators/base.py, abbreviated BASE). |
| `PGeneric.v` | Proofs: combining entropies of any lawful estimator. |
| `PGeneric2.v` | Proofs: entropy combinations of rows; discrete instance agrees with the dedicated formulas. |
| `PropsGeneric.v` | Property theorems: MI / CMI / TE / CTE from entropies (C25), for every lawful entropy estimator. |
| `SpecGamma.v` | Specification: harmonic numbers, Euler's constant, and the digamma function at positive integers. |
| `MEst.v` | Model: the bias-corrected discrete entropy estimators (infomeasure/estimators/entropy/{shrink,bayes,zhang,chao_shen,chao_wang_jost,ansb,bonachela,grassberger}.py), as estimator objects (MGeneric). Flo |
| `SpecEst.v` | Specification of the bias-corrected entropy estimators, from the literature's formulas, in terms of the counts of a finite sample. All values in nats. |
| `PLog.v` | Logarithm and digamma inequalities used by the bias-corrected estimators. |
| `PEst.v` | Proofs: generic facts about counts of a sample, for the bias-corrected estimators. |
| `PEst2.v` | Proofs: Bonachela, ANSB, Grassberger, Chao-Shen, Chao-Wang-Jost. |
| `PEst3.v` | Proofs: Zhang's estimator. |
| `PEst4.v` | Proofs: shrinkage and Bayesian estimators. |
| `SpecInput.v` | Specification vocabulary: the sample an entropy input denotes. |
| `PEst5.v` | Proofs: estimators on general inputs, invariance, lawfulness. |
| `PEst6.v` | Proofs: shrinkage MI, and helper facts for the property statements. |
| `PropsEst.v` | Property theorems: bias-corrected entropy estimators (C06 rest, C25 instances, C43-C49, C55-C57). [sample i] (SpecInput) is the list of rows an input denotes, [usable i] says the input has at least on |
| `MObj.v` | Model: estimator objects, their caches and the significance tests (infomeasure/estimators/base.py abbreviated BASE, infomeasure/estimators/mixins.py abbreviated MIX). |
| `SpecObj.v` | Specification vocabulary: histories of calls on one estimator object. |
| `PObj.v` | Proofs: estimator objects and significance tests. |
| `PObj2.v` | Proofs: call counts, restoration after tests, and what the surrogates are. |
| `PObj3.v` | Proofs: the surrogate values of the concrete classes, and the test result. |
| `PropsObj.v` | Property theorems: significance tests (C33-C35) and result caching (C39). Histories ([run], SpecObj) are arbitrary lists of calls on one object; [irq] says which [_calculate] calls the user interrupts |
| `SpecOrd.v` | Specification vocabulary: windows, ordinal patterns, factorials. |
| `MOrd.v` | Model: ordinal patterns and the ordinal estimators (infomeasure/estimators/utils/ordinal.py abbreviated UO, estimators/entropy/ordinal.py abbreviated EO, estimators/mutual_information/ordinal.py abbre |
| `POrd.v` | Lehmer code: range, injectivity, surjectivity; exactness of the fixed-width computation. |
| `POrd2.v` | argsort: correctness, uniqueness, invariance; symbolisation. |
| `POrd3.v` | Ordinal entropy. |
| `PropsOrd.v` | Property theorems: ordinal patterns and the ordinal estimators (C29-C32, C58). |
| `SpecDiv.v` | Specification: divergences of finite distributions given by probability functions. |
| `MDiv.v` | Model: Kullback-Leibler and Jensen-Shannon divergence (infomeasure/composite_measures/kld.py and jsd.py), for the approaches whose entropy estimator is modelled (discrete, Miller-Madow, Bayes, shrinka |
| `PDiv.v` | Proofs about divergences. |
| `PDiv2.v` | Proofs connecting the divergence model (MDiv) with the specification. |
| `PropsDiv.v` | Property theorems: Kullback-Leibler (C27) and Jensen-Shannon divergence (C28). |
| `PropsDiv2.v` | Property theorems: divergences of the Bayes and ordinal approaches (C27, C28 continued). |
| `MPct.v` | Model: [StatisticalTestResult.percentile] and [.confidence_interval] (infomeasure/utils/data.py 167-246), with the default method "linear". |
| `PropsPct.v` | Property theorems: percentiles and confidence intervals of a statistical test (C36). |
| `MDisp.v` | Model: choice of the estimator class from measure and approach names and the hand-over of arguments (infomeasure/estimators/functional.py). The tables are copied from the source; a class is represente |
| `SpecDisp.v` | Specification: which estimator class a measure and an approach name stand for. |
| `PropsDisp.v` | Property theorems: choice of the estimator (C40) and agreement of [estimator] with the functions (C41). |
| `MConf.v` | Model: the global configuration (infomeasure/utils/config.py) and the capture of its [base] as a default argument when the modules of a package are imported. |
| `SpecConf.v` | Specification of the configuration: which values a setting accepts, and what a history of calls leaves behind. |
| `SpecConf2.v` | Specification of a program history: configuration calls and uses of measures. |
| `PropsConf.v` | C37 (configuration store) and C38 (which base a calculation uses). |
| `MCtor.v` | Model: constructing discrete entropy estimators from arrays, DiscreteData objects, counts and probabilities (infomeasure/utils/data.py, infomeasure/estimators/base.py). |
| `PropsDD.v` | C42: DiscreteData. |
| `MNorm.v` | Model: [normalize_data_0_1] (infomeasure/estimators/utils/normalize.py 8-32) on exact reals. |
| `PropsNorm.v` | C51: normalisation to the unit interval. |
| `MCont.v` | Model: numeric arrays, neighbour searches and the parts shared by the kernel and nearest-neighbour estimators. Floats are exact reals. |
| `SpecKern.v` | Independent specification of box-kernel information measures. A variable is a list of sample points, a point a list of coordinates; nothing here refers to the code model. |
| `MKern.v` | Model: kernel density estimation and the kernel estimators. Floats are exact reals. |
| `PKern.v` | Proofs: box-kernel densities. |
| `PKern2.v` | Proofs: invariances of box-kernel counts. |
| `PKern3.v` | Proofs: the kernel estimators compute the specified measures. |
| `PKern4.v` | Proofs: bounds of kernel mutual information; kernel conditional mutual information. |
| `SpecTEc.v` | Specification of the time-delay embedding of numeric (possibly vector-valued) series. |
| `PTEc.v` | Proofs: the time-delay embedding of numeric series. |
| `PKern5.v` | Proofs: kernel transfer entropy. |
| `PropsKern.v` | C53, C59-C62: box-kernel densities, entropies, mutual information and transfer entropy. |
| `PropsKern2.v` | C60-C62: kernel mutual information, conditional mutual information and transfer entropy. |
| `PropsKern3.v` | C61, C62: kernel conditional mutual information and transfer entropy. |
| `PropsKern4.v` | C64, C65: kernel cross-entropy, Kullback-Leibler and Jensen-Shannon divergence. |
| `SpecGauss.v` | Independent specification of one-dimensional Gaussian kernel density estimates. |
| `PropsKern5.v` | C63: the Gaussian kernel on one-dimensional data |
| `PropsKern6.v` | C60 (time offset), C66: parameters of the kernel estimators |
| `MKnn.v` | Model: nearest-neighbour estimators (Kozachenko-Leonenko, Kraskov-Stoegbauer-Grassberger, Renyi, Tsallis). Floats are exact reals. |
| `SpecKnn.v` | Independent specification of nearest-neighbour information measures. A variable is a list of sample points, a point a list of coordinates; nothing here refers to the code model. |
| `PKnn.v` | Proofs: Minkowski norms, nearest neighbours and neighbour counts. |
| `PKnn2.v` | Proofs: the KSG forms of mutual information, conditional mutual information and transfer entropy. |
| `PropsKnn.v` | C67-C69: mutual information by nearest neighbours (KSG). |
| `PropsKnn2.v` | C70-C73: parameters, offset and noise of the KSG mutual information; conditional mutual information. |
| `PropsKnn3.v` | C72 (noise, bounds), C73: transfer entropy by nearest neighbours. |
| `SpecKnn2.v` | Independent specification: ball volumes, and nearest-neighbour entropies. |
| `PKnn3.v` | Proofs: ball volumes, Kozachenko-Leonenko entropy. |
| `PropsKnn4.v` | C74: ball volumes; C75: Kozachenko-Leonenko entropy. |
| `PropsKnn5.v` | C77: cross-entropy and Kullback-Leibler divergence by nearest neighbours. |
| `PKnn4.v` | Proofs: the exponential-family estimators (Renyi, Tsallis). |
| `PropsKnn6.v` | C78: Renyi and Tsallis entropy by nearest neighbours; C79: their parameters and cross-entropies. |
| `PropsKnn7.v` | C79: parameters, coinciding samples and cross-entropies of the Renyi and Tsallis estimators. |
| `MFam.v` | Model: Renyi/Tsallis mutual information, conditional mutual information, transfer entropy (base.py `_generic_*_from_entropy`, mutual_information/ and transfer_entropy/ renyi.py, tsallis.py). |
| `SpecFam.v` | Specification: entropies of order q of a joint variable from its neighbour distances. |
| `PFam.v` | Proofs: combinations of Renyi and Tsallis entropies. |
| `PropsFam.v`, `PropsFam2.v` | C80: Renyi and Tsallis (conditional) mutual information. |
| `PropsFam3.v` | C81: Renyi and Tsallis transfer entropy. |
| `SpecNsb.v`, `MNsb.v` | Specification (series of digamma and trigamma, Riemann integrals of Coquelicot) and model of the NSB entropy. |
| `PNsb.v`, `PNsb2.v`, `PNsb3.v`, `PNsb4.v` | Proofs: trigamma inequality, bounds of the posterior entropy, continuity and integrability, model = specification. |
| `PropsNsb.v` | C82: NSB entropy. |
| `MComb.v`, `PropsComb.v` | C83: MI, CMI, TE, CTE of the approaches ansb and nsb. |
| `SpecInv.v`, `PropsInv.v`, `PropsInv2.v` | C84: invariance of MI/CMI/TE/CTE under renaming symbols and reordering samples; `PropsInv2.v` without limits on number of variables or samples (also where the 64-bit products wrap), 2-D variables, Miller-Madow (no new model; uses the models of C10-C25 and C55). |
| `PropsRows.v` | C07, C10, C11, C12, C16, C18 for 2-D arrays (each sample a row) and for conditions given as array, 2-D array or tuple. Three 2-D variables of which one is constant: local values 0, value not 0. |
| `PropsTE2.v` | C85: chain rule and history inequalities of the discrete transfer entropies. |
| `SpecRepl.v`, `PRepl.v`, `PropsRepl.v` | C86: limits of the estimators on m-fold repeated data (no new model; closed forms of C43-C49). |
| `SpecMvg.v`, `MGauss.v`, `PMvg.v`-`PMvg5.v`, `PropsMvg.v`-`PropsMvg4.v` | C87, C88: multi-dimensional Gaussian kernel: covariance, Cholesky, whitening, eigenvalue projection (model `MGauss.v`); determinants and quadratic forms by elimination (spec). |
| `SpecEff.v`, `PropsEff.v` | C89: effective transfer entropy over histories of calls (model `MObj.v`). |
| `MObjC.v`, `SpecObjC.v`, `PropsObjC.v` | C90: objects over numeric data (rows represented by their numbers) and their significance tests. |
| `MArgs.v`, `PropsArgs.v` | C91: kinds of positional arguments of the entropy estimators. |
| `SpecSub.v`, `PSub.v`, `PropsSub.v`, `PropsSub2.v` | C92: embeddings with a step size are embeddings of the subsampled series. |
| `PropsNormC.v`, `PropsNormC2.v` | C93: normalisation removes units and origins. |
| `SpecUnits.v`, `PUnits.v`, `PropsUnits.v`, `PropsUnits2.v` | C94: changes of origin and unit; the embedding commutes with them. |
| `PropsOrd2.v`, `PropsOrd3.v` | C95: ordinal measures under increasing, decreasing maps and time reversal (uses C31, C32, C58). |
| `MDivD.v`, `PropsDivD.v` | C96: KLD and JSD as API functions on top of the dispatch model; constructors and their objects are a parameter, filled in for the count-based estimators (keyword parsing stays a parameter there). |
| `MKw.v`, `SpecKw.v`, `PKw.v`, `PropsKw.v` | C97: keyword arguments through the chains of `__init__` methods (method resolution order) of all 80 classes; data and value checks are parameters. |
| `PropsShift.v`, `PropsShift2.v` | C98: shift arguments of all TE/CTE/CMI approaches, with their specification (`asks`, `te_acceptable`, `cte_acceptable`) |
| `SpecCross.v`, `PropsCross.v` | C99: `CrossEnt` (sum over the shared values), `FullCross`; values of the four approaches, Gibbs, invariances, refutations |
| `SpecStab.v`, `PStab.v`, `PropsStab.v` | number of changed entries, the bound (1 + ln n)/n; C100 |
| `PropsLen.v`, `PropsLen2.v` | C101: number, lengths and offset of the data arguments of MI and CMI for every approach; C50 for every approach and array shape; C32 (`stable`) |
| `PropsLocal.v`, `PropsLocal2.v`, `PropsDup.v` | C07/C26 for Miller-Madow and any number of variables; C102: availability of local values; C41: no keyword given twice |
| SpecPool, PPool, PropsPool | Pooling samples: entropy of a concatenation against the parts (block decomposition of the plug-in entropy, Gibbs with equality), labels, JSD as label MI (C103) |
| `SpecCoarse.v`, `PCoarse.v`, `PropsCoarse.v`, `SpecPinsker.v`, `PPinsker.v`, `PropsPinsker.v` | C104: log-sum inequality with equality case; C105: Pinsker, JSD against event frequencies, MI as KLD |
| `SpecPredict.v`, `PPredict.v`, `PropsPredict.v` | C106: best logarithmic loss, determination, Fano |
| `MFloat.v`, `SpecFloat.v`, `PFloat.v`, `PFloat2.v`, `PropsFloat.v` | C107: discrete entropy with every operation rounded to double precision (Flocq) |
| `PropsObjF.v` | C108: object interface = functional interface for the discrete estimators |
| `MFloat2.v`, `PFloat3.v`–`PFloat6.v`, `PropsFloat2.v` | C109: mutual information, CMI, TE, CTE with every floating-point operation rounded to double precision; contingency counts stay exact integers (uint64), overflow excluded by sample size < 2^32 |
| `SpecLocal.v`, `MOrdL.v`, `PLocal.v`, `PropsPoint.v`–`PropsPoint3.v` | C110: pointwise values; `MOrdL.v` adds the local-value branches of the ordinal MI/CMI/TE/CTE estimators to the ordinal model of `MOrd.v` |
| `MHeap.v`, `SpecHeap.v`, `PHeap.v`–`PHeap5.v`, `PropsHeap.v`, `PropsHeap2.v` | C111: the KSG, Renyi, Tsallis and Kozachenko-Leonenko calls as programs on memory (buffers, views, `asarray` without copying, `copy`, `astype`, `+=`); specification: `valid`, `value_of`, `preserves` |
| `MWorld.v`, `SpecWorld.v`, `PWorld.v`, `PropsWorld.v` | C112: programs with several estimator objects and random generators as shared mutable objects; `default_rng` with integer, none or an existing generator (mixins.py 32-35) |
| `SpecOrder.v`, `PGamma.v`, `PGamma2.v`, `PWallis.v`, `POrder.v`, `PropsOrder.v` | C113: the order tends to 1; derivative of ln gamma at integers from log-convexity, existence (Gauss' product, Wallis) and uniqueness of the gamma function. |
| `PropsMono.v` | C114: dependence of Renyi and Tsallis estimates on their order. |
| `SpecPert.v`, `PPert.v`, `PPert2.v`, `PPert3.v`, `PropsPert.v`, `PropsPert2.v`–`PropsPert6.v` | C115: small changes of the data and vanishing noise (nearest-neighbour estimators). |
| `SpecPertK.v`, `PPertK.v`, `PropsPertK.v`, `PropsPertK2.v` | C116: small changes of the data (kernel estimators). |
| `SpecCons.v`, `PCons.v`, `PropsCons.v` | C117: convergence along growing records. |
| `SpecCons2.v`, `PropsCons2.v` | C117: convergence of cross-entropy, divergences, conditional mutual information and conditional transfer entropy. |
| `SpecNeg.v`, `PNeg.v`, `PropsNeg.v` | C09: a negative base against base e, measure by measure. |
| `SpecName.v`, `PropsPrior.v` | C40/C45: names in any case; C27/C28/C99: Bayesian cross-entropy and divergences with named priors and a given K. |
| `PropsDisp2.v` | C40: what each of the six measure functions constructs from data and keywords (class, data, unchanged keywords) and what each refuses. |
| `SpecMetric.v`, `PropsMetric.v` | C121: variation of information and Rajski's distance, computed from returned entropies, are metrics. |
| `SpecHan.v`, `PropsHan.v` | C122: adding or leaving out records: monotonicity, submodularity and Han's inequality of joint entropies; growth of the mutual information. |
| `PropsPoolK.v` | C123: compensation identity of KLD under pooling, convexity, the pool as centroid, JSD as mean divergence from the pool. |
| `PropsCoinfo.v` | C124: interaction information of three records: symmetry, bounds, relation to the mutual information of three. |
| `PropsStabJ.v` | C100: stability of the Jensen-Shannon divergence and of the mutual information of many records. |
| `PropsStabC.v` | C100: stability of the conditional transfer entropy. |
| `PropsStabO.v` | C100: stability of the ordinal entropy and of the ordinal mutual information. |
| `PropsStabO2.v` | C100: stability of the ordinal transfer entropy. |
| `PropsStabO3.v` | C100: stability of the ordinal conditional transfer entropy. |
| `SpecSep.v`, `PropsSep.v` | C118: box-kernel estimates of well separated codes are the discrete estimates. |
| `SpecDens.v`, `PropsDens.v` | C119: the box-kernel estimate integrates to one and is consistent under marginalisation. |
| `MFloat3.v`, `SpecFloat2.v`, `PFloat7.v`, `PropsFloat3.v` | C120: cross-entropy and the KL and JS divergences in double precision. |
| `PropsBad.v`, `PropsRescale.v` with `SpecBad.v`, `PBad.v`, `PBad2.v`, `SpecRescale.v`, `PRescale.v`, `PRescale2.v` | C08, C09 for every measure: whole calls in two bases related step by step (`U`), and calls with an unusable base (`W`). |
| `PropsMore.v` | C20, C22 (conditional TE, resampling), C27 (divergence of every pair of samples), C44 (what the shrinkage MI is). |
| `PropsCounts.v` | C55 for Bayes (any prior, any K), ANSB with given K and NSB: functions of the multiset of counts, for every base. |
| `PropsProc.v` | C52 for any number of variables, for rows, for conditional MI of any number of variables and for joint entropies. |
| `PropsReject.v` | C66, C70: every kernel and KSG measure on every input raises for invalid parameters. |
| `SpecWrap.v`, `PWrap.v`, `PropsWrap.v` | C13, C14, C08: mutual information for every sample size, with the 64-bit wrap-around. |
| `PWrapC.v`, `PropsWrapC.v` | C16, C17: conditional mutual information for every sample size, with the 64-bit wrap-around. |

## 3. Plan per property

"RV style": a data set is a list of samples, a variable a function on samples; counts are sums of
indicators; entropies are averages over samples of `-ln(count/N)`; the key inequality is
`ln t <= t-1` plus double counting.

* C01-C03 model `DiscreteData.from_data`, `_simple_entropy`, `_log_base`; equality with `Spec.H`;
  bounds by `ln t <= t-1`; invariance through "same partition => same entropy".
* C04, C05 model `reduce_joint_space` (`column_stack` + `unique(axis=0, return_inverse)`).
* C06, C07 local values: sum over samples = sum over distinct values weighted by counts.
* C08, C09 `_log_base` and the direct `log(self.base)` divisions of the other estimators; every measure by relating the call in
  base b with the call in base e computation by computation.
* C10-C15 contingency tables (`COO`, `crosstab`), with `uint64` wrap and the early returns.
* C16-C18 conditional contingency tables.
* C19-C24 slicing as index arithmetic; TE as CMI of rows; permutation as an oracle.
* C25 generic entropy combination, parameterised by an entropy estimator.
* C26 Miller-Madow corrections.
* C27, C28 cross-entropy on dictionaries, KLD, JSD mixture.
* C29-C32 argsort patterns, Lehmer code, dtype selection with wrap-around, fast paths.
* C33-C35 statistical test as a state machine with crash points and random oracle.
* C36 numpy's linear percentile on sorted values.
* C37, C38 Config state machine; module import as a step that captures the default base.
* C39 estimator life cycle state machine.
* C40, C41 dispatch tables and keyword routing as finite maps over strings.
* C42 validation of `DiscreteData`.
* C43-C49 the remaining discrete entropy estimators.
* C50, C51 offset slicing, normalisation.  C52 data-processing inequality.
* C53 box kernel counts, chunking with `array_split`.
* C54 refutation by a concrete pair of series.  C55-C57 the bias-corrected estimators depend on counts only.
* C58 ordinal MI/CMI/TE/CTE are the discrete measures of the symbolised series (composition of C29-C31 with C10-C24).
* C59-C62 box-kernel entropy, MI, CMI, TE: the code's counts equal `SpecKern` counts; then the entropy
  combination is a sum over samples; invariances by permuting sums.
* C63 the 1-D Gaussian kernel against the normal density of `SpecGauss`.
* C64, C65 kernel cross-entropy, KLD, JSD.  C66 parameter checks.
* C67-C71 KSG mutual information: k-th smallest distance and strict / closed neighbour counts characterised by
  counting (`SpecKnn`), digamma as harmonic sum; invariance under isometries and scalings; range from the
  counts' range; offset and noise (noise draws are arguments).
* C72, C73 KSG conditional MI and TE on the embedding of C20.
* C74 ball volumes by the Gamma recursion; C75 the Kozachenko-Leonenko entropy, scaling and permutation laws.
* C80, C81: the generic combinations of entropies with the exact-real nearest-neighbour entropies; transfer entropy by
  reduction to conditional mutual information of the embedded series.
* C82 NSB: series inequalities give a positive prior density and 0 <= posterior mean <= ln(observed values); the integrands
  extend continuously to 0, so the integrals exist; quad is assumed exact.
* C83: the generic combinations for estimators that refuse local values and may be undefined.
* C84: equal partitions of the sample points give equal counts (C55); partitions of joint and embedded tables follow from those of their columns; reordering permutes the rows.
* C85: closed forms C19/C24, chain rule and data processing for CMI; shorter histories are suffixes of longer ones.
* C86: counts of repeated data are m times the counts; limits of digamma minus logarithm (Coquelicot `is_lim_seq`), geometric and 1/m terms.
* C87, C88: Cholesky steps are elimination steps, so the whitened distance is the quadratic form and the product of the diagonal the root of the determinant; elimination is invariant under adjacent transpositions of coordinates and scales with units; positive definiteness from the variance in every direction.
* C89: invariant of the object state over histories (data, flags off, generator position = number of surrogates drawn so far, stored result); information inequalities for the bounds.
* C90: one invariant over the surrogate loop for all numeric classes (generator position grows, original data kept), instantiated per approach and rewritten to the functional interface; a progress lemma shows that the tests complete. CTE: the loop evaluates the same data (`_refuted`).
* C91: case analysis on the argument list against an inductive specification of the accepted requests.
* C92: index arithmetic: the index matrices for step s are s times those for step 1; slices and windows of `every s` lists via `nth_error` extensionality.
* C93: the constructors yield equal processed data for rescaled arguments (C51 plus slicing); every later step sees only those.
* C94: neighbour counts are invariant under distance-scaling maps; embedded series of moved series are moved embedded series; then C61/C62, C72/C73, C80/C81.
* C95: `symbolize` is unchanged by increasing maps (C31), decreasing maps reverse each pattern and time reversal reflects it, both one-to-one relabellings; then the partition lemmas for Ent/MI/CMI and the C32/C58 formulas.
* C96: unfolding of the dispatch; case analysis over the estimator table; the count environment reduces to the models of C27/C28.
* C97: construction on symbolic keyword arguments is sound for all keyword arguments (induction over the chain); the symbolic results are compared with the specification table by computation.
* C98: `te_acceptable`/`cte_acceptable` state when a shift request is legal; the constructors `te_init`, `fte_init`, `cte_init`, `fcte_init` accept exactly those, and every approach starts with its constructor; the shift by hand is compared slice by slice.
* C99: the code sum over the common values is a permutation of `shared`; Gibbs from C27; invariance by relabelling the shared values.
* C100: write N(ln N - H) as the sum of n_v ln n_v, whose value changes by at most 1 + ln N when one sample point is removed or added; induct over the changed positions; count the embedded rows that a changed value of a series touches (Lipschitz bounds for entropy, Miller-Madow, MI, CMI, TE; the bound vanishes and has the right order). JSD: entropy of the pool against the mean entropy of the samples; conditional TE: the same four entropies with the paired pasts as condition; ordinal measures: a changed value touches at most embedding_dim windows, so the discrete bounds apply to the pattern sequences.
* C101: case analysis of the constructors; lengths are preserved by normalisation and noise, so that a wrong length reaches the stacking of columns and is refused there.
* C102: case analysis over the approaches; results that are neither of the two refusals are closed under the operations of the model.
* C103: the plug-in entropy of a concatenation is written as a sum over sample points; the gap to the weighted mean is a weighted sum of KL divergences to the pool (zero iff equal), the gap to the joint entropy with the labels is zero iff the labels are determined.
* C104: all three quantities are sums over sample points of log ratios; ln t >= 1 - 1/t with equality only at 1 gives the inequality and the equality condition.
* C105: merge to the two-symbol alphabet of an event (C104), then the binary inequality by the mean value theorem; MI by counting the pairs of the product list.
* C106: conditional Gibbs inequality over arbitrary predictors, attained by the empirical conditional distribution; Fano by the predictor that trusts the guess with the observed success rate.
* C107: relative error of every rounded operation (no underflow: all magnitudes are zero or at least 2^-1022), induction over the summation tree, (1+u)^n + (1-u)^n >= 2.
* C108: a history of completed calls leaves the object unchanged (C34); its first evaluation is the functional evaluation by unfolding both.
* C109: pair each rounded term with its exact counterpart in the `ap` relation (absolute size and error in units of p·ln n), bound the rounded sum over any tree by its depth, compare with the exact-model theorems (C05, C06, C19, C24). Bitwise invariance: the contingency table of jointly reordered samples is the same table.
* C110: `local_mi`, `local_cmi`, `local_tc`, `local_entropy` are written from counts of the sample only; every model local function is reduced to them through same-partition lemmas (symbols, row identifiers and flattened histories have the partition of the values they encode). Equivariance: counts do not change under a reordering of the samples.
* C111: a call is run on a memory; invariant `st h0 h l vs`: the memory extends the caller's memory `h0` by new buffers, the arrays `l` the call has allocated lie in distinct new buffers and hold `vs`. Every `+=` keeps it (the target is in `l`), so that the final memory is `h0 ++ new`; the values `vs` are followed through the loops and give the value models of the other claims.
* C112: a world holds generators (stream and position), the references of the user and of the objects; events are constructor calls, method calls (MObj `run_op`), generators made and used by the user. Invariant `own`: exactly one object refers to its generator; by induction over the program its answers are those of `alone`. Shared generators: concrete counterexample.
* C113: convexity squeezes ln G(m+h) - ln G(m) between h ln(m-1) and h ln m; with the recursion and H_n - ln n this gives (ln G)'(k) = psi(k). ln I / (1-q) and (1-I)/(q-1) are difference quotients at 0 whose derivative is the order-1 formula; limits of sums give the other measures. The hypotheses on gamma (`is_gamma`, `log_convex`) are met by `PGamma2.gamma` and by no other function on the positive reals.
* C114: ln I / (1-q) + gamma term is the slope from 0 of t -> ln mean exp(t x) with t = 1-q, convex with tangent mean x at 0, so the slope is monotone through 0 (order 1) and bounded by the extreme x; the gamma term is the slope of ln G(k+t), convex with derivative psi(k) at 0 (C113).
* C115: neighbour distances are Lipschitz in the data (k-th order statistic of Lipschitz functions), logs and powers of positive radii are continuous, so entropies are; without ties the strict comparisons of the neighbour counts keep their outcome in a neighbourhood, so KSG counts are locally constant. Noise of level s moves every entry by at most s times a bound on the finitely many draws used. With ties: explicit data sequences.
* C116: comparisons with half a bandwidth that are strict keep their outcome in a neighbourhood, so box counts, hence all estimates, are locally constant (value theorems C59-C65); the Gaussian density is a composition of continuous functions of the samples (standard deviation positive).
* C117: each closed form (C43-C49) is a sum over the alphabet of terms that converge (x ln x is continuous at 0; corrections are bounded by K/N, ln N/N or 1/sqrt N); mutual information and transfer entropy through images of settling records; a periodic stream settles because counts over n steps differ from n c/L by at most L. Cross-entropy and divergences are rewritten as sums over the common alphabet (absent symbols have probability 0) and pass to the limit term by term.
* C118: samples are near each other in the box iff their labels agree, so the kernel density at a sample is its relative frequency over h^d (nnear_lab, KH_lab); the combinations C60-C65 then reduce to the plug-in closed forms, the volume terms cancelling.
* C119: the density is a sum of indicator functions of boxes; each integrates to h^d (Chasles on three intervals, coordinate by coordinate), so linearity of the iterated integral gives 1; for joint points the indicator factors into the two blocks.
* C120: a weighted sum of rounded logarithms is within a relative factor (weights and products) plus an absolute term (relative error of the arguments turned into an error of their logarithm) of the exact one; instances: cross-entropy over the shared symbols in any set order, and the mixture of Jensen-Shannon, whose weights are left-to-right sums divided by the number of samples.
* C121 metrics from entropies: submodularity of the plug-in entropy (CMI >= 0 and coarsening), determination and independence cases reused from C103 and C12.
* C122 records added: conditional mutual information of the columns as functions of the time index is non-negative; Han's inequality by induction on the columns, conditioned on an arbitrary further variable.
* C123 pooled samples: cross-entropy as a sum over sample points is additive under concatenation (C27's value for every pair); sign and equality from C27.
* C124 interaction information: entropies of triples do not depend on their nesting or order; C10, C13, C16 values.
* C13/C14 in full: uprod = product mod 2^64, then the same cell sum as before with the lost factor as an extra term.
* C76, C79 parameter checks; C77 cross-entropy and KLD; C78 Renyi / Tsallis values.

Properties that are false of the code get a `_refuted` theorem with a witness plus the theorem
that holds under the guard the code actually needs.
