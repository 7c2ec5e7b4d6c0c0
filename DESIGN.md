# Formal model of smolgp: design

This directory holds a Rocq (Coq 8.16.1) model of the code in `/repo/src/smolgp`
and machine-checked proofs of the properties in `properties.jsonl`.

Build: `cd rocq && coq_makefile -f _CoqProject -o Makefile && make -j4`.

## Layout (`rocq/theories`)

| file group | contents |
| --- | --- |
| `Prelude/` | the mathcomp structures on Coq's real numbers `R`, positive (semi)definite matrices, block and Kronecker matrices, derivatives and integrals of matrices |
| `Model/`   | the code, function by function, no proofs; every definition cites file and lines |
| `Spec/`    | independent specifications: dense Gaussian process formulas, matrix exponential, integrals, textbook covariance functions, conditions on data |
| `Proofs/`  | lemmas |
| `Props/`   | one file per property `Cxx`; only theorem statements closed by `exact`, examples that the hypotheses are satisfiable, and `Print Assumptions` |

`MANIFEST.json` maps properties to theorems. `seeded/LOG.jsonl` records the wrong programs the
theorems were tested against.  In each line `failed_at` is the lemma at which the rebuild stopped,
`theorems_failed` the theorems of the property in `breaks` that rest on it and no longer check, and
`not_reached` the other properties whose proofs import that file: they were not rebuilt, and the
edit need not make them false.  A stop at a lemma shows that the proof no longer goes through, not
by itself that the theorem is false for the edited program.

Theorem names: `_refuted` means that the code does not have the property on the exhibited input;
`_partial` means that the theorem covers less than the stated property.

## Modelling decisions

* Numbers. JAX floats are exact elements of a real field: a generic `realFieldType` for the solver
  algebra, Coq's `R` where exp/cos/ln/integrals occur. Rounding, overflow, NaN and dtypes are not modelled.
  Explicit thresholds in the code are (`jnp.isclose`/`allclose` at critical damping, the flush of
  small process noise to 0, the `eps` of the dense integrated kernel).
* Arrays are `seq`s of scalars or of mathcomp matrices, with the dimension in the type. `jax.lax.scan`,
  `vmap`, `take`, `searchsorted`, `lexsort`, `argsort`, `nonzero` are list functions (`Model/Jax.v`).
  `jax.lax.associative_scan` is its documented odd/even recursion (`Model/Parallel.v`).
* Indexing out of range follows JAX (clamping for reads, wrap-around for negative indices) where the code can do it.
* `jnp.linalg.solve(A, B)` and `inv` are `invmx A *m B`. mathcomp's `invmx` is total (it returns `A`
  on singular matrices), so every exactness theorem comes with a proof that the matrices solved against are
  invertible; inputs for which they are not are excluded and, where found, refuted (C25, C43).
* `jax.scipy.linalg.expm` is the exact matrix exponential (`Spec/Expm.v`, an entrywise power series).
* Python exceptions are values: a function that can raise returns `err + A` (`inl e` for an exception of
  class `e`, `inr a` for a result). Which exception is raised by JAX on wrong shapes is recorded in the
  comment of the definition.
* Kernel objects are an inductive type of expressions (`Model/Kernel.v`), with a constructor `Custom` for
  user-defined state-space models; `denote` gives the matrices.
* `jit`, tracing, pytrees, devices and dtypes are not modelled except where they make a call raise.

## What is modelled

| code | model |
| --- | --- |
| `helpers.py` (Van Loan helpers, `Phibar_from_VanLoan`, `Q_from_VanLoan`) | `Model/Helpers.v` |
| `kernels/base.py`: `StateSpaceModel`, `Sum`, `Product`, `Scale`, all base kernels, `ExpSineSquared` with its Bessel series, `Matern(nu)`, operators, `extract_leaf_kernels` | `Model/BaseKernels.v`, `Model/Kernel.v` |
| `kernels/base.py`: `StateSpaceModel.psd` | `Model/Spectrum.v` |
| `kernels/integrated.py`: all integrated kernels, their closed forms, `reset_matrix` | `Model/IntegratedKernels.v` |
| `kernels/dense.py`: `IntegratedSHOKernel`, `SHOKernel` helpers, coordinate dispatch, `extract_dense_leaf_kernels` | `Model/Dense.v` |
| `solvers/{kalman,rts,solver}.py` | `Model/Sequential.v`, `Model/SequentialOps.v` |
| `solvers/parallel/*.py` | `Model/Parallel.v`, `Model/Gp.v` |
| `solvers/integrated/*.py`, `solvers/integrated/parallel/*.py` | `Model/Integrated.v`, `Model/Gp.v` |
| `gp.py`: names, `ConditionedStates`, `PredictedStates`, `GaussianProcess` construction, `log_probability`, `condition`, `predict`, components | `Model/Frontend.v`, `Model/Gp.v` |

Not modelled: `GaussianProcess.sample`, `_sample`, `numpyro_dist`, `covariance` of `gp.py` (they go to tinygp or to
random numbers); `__repr__`; keyword arguments passed through to solvers; `Delta` of `dense.py` (never called);
imports and `__init__` modules; empty data sets; anything inside JAX, equinox or tinygp.

## Properties

Status as in `MANIFEST.json`. "How" names the method and the main proof files.

| property | status | how | remark |
| --- | --- | --- | --- |
| C01 log_probability is the exact GP marginal likelihood | partial | explicit weights W with m = W y for each state, shown to solve the normal equations of the dense process restricted to the data so far (`Fit`, `FitThms`); determinant by the chain of innovations | Exact for every sorted data set (ties allowed), every positive diag and every well-formed kernel expression whose process noise is not flushed to 0 at the steps used (steps_kept, void for kernels without SHO/Scale/Custom); refuted by example where the flush to zero fires. |
| C02 condition returns the exact posterior at the data | partial | the smoother step as one more weight equation | Exact for N >= 2 under the same conditions as C01; condition raises for a single datum (refuted). |
| C03 predict is the exact posterior at arbitrary test times | partial | the three cases of predict as one weight equation | Posterior mean and variance at every test time, any order and number of test times, ties and extrapolation on both sides; under steps_kept/predict_kept: no process noise entry flushed to 0 over the steps used (void for kernels without SHO/Scale/Custom; the flush is refuted in C01_flush_refuted and C13). |
| C04 no singular solve and no -inf sentinel on valid input | partial | invariant of the recursion over positive definite covariances | Every predicted covariance is positive definite, every innovation variance > 0, log_probability is finite; under steps_kept (void for kernels without SHO/Scale/Custom): a flushed process noise need not be positive semidefinite, see C14_flush_refuted. |
| C05 reported variances are sane | partial | Loewner order through the recursion | 0 <= variance <= prior variance for condition and predict; smoothed <= filtered <= predicted for every projection; under steps_kept/predict_kept as in C03. |
| C06 the parallel solver computes the same answer as the sequential one | partial | associative_scan = fold; elements of the scan as affine-Gaussian maps (`AssocScan`, `FilterElem`, `ParFront`) | Proved: log_probability, conditioned means/variances and every form of predict agree, for every sorted data set and every kernel the parallel solver accepts. Refuted: Exp kernels (the parallel solver raises) and predictions with exposure-time coordinates (TypeError). |
| C07 the parallel result does not depend on the evaluation schedule | proved | semigroup laws of the filtering and smoothing tuples on positive semidefinite elements, pushed through the inverses | Every bracketing, for all elements with positive semidefinite covariances; the elements of the solver are proved to be such under steps_kept (C01), and the inverted matrices nonsingular. The element constructor of the integrated parallel solver is covered by C27. |
| C08 predicting at the data reproduces condition | partial | computation on the model | predict(X) and predict(None) return (loc, variance), repeated times included; under steps_kept (see C01). |
| C09 the posterior mean is linear in the data and the variances ignore it | proved | linearity of the recursion in y | Linearity of loc and predicted means, independence of all covariances from y (sequential solver). |
| C10 results are invariant under a shift of the time origin | proved | the model sees only differences of times | Shift of the time origin changes nothing, for every kernel with constant observation model (sequential solver). |
| C11 transition matrices compose | partial | closed forms by trigonometry; Kronecker and block matrices for Sum/Product | A(0)=I and A(s+t)=A(s)A(t) for every well-formed kernel expression that does not raise; refuted corner: Constant.transition_matrix raises AttributeError. |
| C12 hand-written transition matrices equal the matrix exponential | partial | uniqueness of solutions of X' = F X for the power series | transition = expm(F dt) for every sharp kernel expression; refuted inside the SHO critical-damping tolerance band. |
| C13 hand-written process noise equals the stationarity formula | partial | algebra on closed forms | Q = Pinf - A Pinf A^T whenever the flush to zero and Scale do not interfere; both corners refuted by example. |
| C14 the advertised model matrices are a stationary linear SDE | partial | algebra; determinants and Schur complements for definiteness | Lyapunov equation, Pinf PD and Q PSD for every well-formed kernel; noise PSD refuted where the flush to zero fires. |
| C15 kernel.evaluate equals the documented covariance function | partial | computation on H A Pinf H^T | evaluate equals the documented covariance for all documented kernels; the SHO docstring formula, the SHO band and asymmetric custom observation rows are refuted. |
| C16 every kernel is a valid covariance function | proved | the covariance of a stationary Markov chain is a Gram matrix | Gram matrices of evaluate are symmetric PSD for every well-formed kernel expression and every set of coordinates. |
| C17 k1 + k2 and k1 * k2 mean the sum and product of covariances | proved | block and Kronecker algebra | Sum and Product act as the sum and product of covariances. |
| C18 the Van Loan helpers compute the integrals they document | proved | Van Loan's theorem by the differential equation of the blocks of the exponential | All three helpers, all dimensions and real time steps: equal to the documented integrals (entrywise Riemann integrals, which are shown to exist). |
| C19 the two ways of computing process noise agree | partial | C18 with C12 and C13 | Proved for the default methods under the Lyapunov equation, and for every kernel expression (closed-form noise = Van Loan noise of the declared matrices) under the C12/C13 hypotheses: not in the allclose band, no entry rounded to 0, Scale only with factor 1 or without noise; those corners are refuted in C12 and C13. |
| C20 power spectral densities | partial | complex matrices over mathcomp `R[i]`; the resolvent of the drift matrix against the Fourier transform of the covariance, by integrating the matrix exponential (`Spectrum`, `SpectrumFourier`, `SpectrumKernel`) | Realness, non-negativity and the sum rule for every kernel expression wherever psd has a value; the rational spectra of SHO, Exp, Matern32 and Matern52 at every frequency; for sums of damped kernels and products of damped with damped or periodic ones psd has a value everywhere and is the Fourier transform of the evaluated covariance. What fails is 'all frequencies' for undamped kernels: Cosine at its own frequency and Constant at 0 invert a singular matrix (C20_everywhere_refuted). Hypothesis sharp_kernel: SHO quality factors that jnp.allclose rounds to 1/2 are excluded from the non-negativity and Fourier theorems. |
| C21 ExpSineSquared is the documented periodic kernel up to its stated error bound | partial | generating function and tail of the Bessel series (`Periodic`, `PeriodicThms`) | The stated bound exp(1-2/gamma)/(J+1)! is refuted: for every order J (the automatic one included) every small enough gamma violates it at zero lag (C21_error_bound_refuted, C21_error_bound_every_order_refuted). Proved instead for all parameters, orders and times: the error is at most sigma^2 (gamma/2)^m/m!, m = min(J,100). |
| C22 scaling a kernel by a number scales its covariance | partial | computation | scalar * kernel raises TypeError; a Scale object scales evaluate but not its process noise. |
| C23 integrated solver bookkeeping | proved | lists: sorting, argsort, pairing of boundaries (`IntBook`) | Both integrated solvers, every input order: 2N sorted states, one start and one end per exposure, ties as stated; results at the data taken from the end state of the exposure in the input order. |
| C24 integrated log_probability is exact | partial | windowed covariance: the filter over boundaries, with resets, keeps weights for the averaged process (`WindowCov`, `FitInt`) | Proved for every sum of integrated kernels, any number of instruments, overlapping exposures of different instruments, any input order, lengths >= 0, under: no exposure begins during one of the same instrument (without it the result is wrong: C24_overlap_refuted); quality factors not in the allclose band (C12); no process noise entry below the 1e-14 rounding of SHO and IntegratedSHO (nothing to assume for the other kernels).  The rounding is refuted in C29. |
| C25 integrated conditioning is exact | partial | smoother over the chain with resets, weights as in C24 (`FitIntCond`) | Proved under the hypotheses of C24, for sums without IntegratedCosine, when no two exposures begin at the same time and some exposure ends after all others have begun; with one exposure condition raises (see C02).  The excluded cases are refuted: with IntegratedCosine or tied starts (C43) the smoother solves with a singular matrix, and when a zero-length exposure comes last the reset of its integral is passed back by the smoother and the mean is wrong (C25_zero_last_refuted). |
| C26 integrated prediction of the latent process is exact | partial | prediction at a boundary-free time as one more weight equation (`IntPredThms`) | Every list of real test times, before, during, between and after the exposures, under the hypotheses of C25 (which are what is missing).  [test_kept]: the noise over the lags to the neighbouring boundaries is not rounded to 0 (nothing to assume without IntegratedSHO). |
| C27 the parallel integrated solver computes the same answer as the sequential one | partial | generic elements of the integrated scan compose to the sequential filter and smoother (`ParInt`, `ParIntFront`) | Log likelihood, conditioning (errors included) and every prediction are equal for all exposure sets whose first boundary is the beginning of an exposure.  Refuted when the first exposure has length 0, and for IntegratedExp, which the parallel solver rejects with a TypeError.  The conditioning theorem assumes C25's [noisy_integrated] and no two exposures beginning together. |
| C28 order of the observations does not matter for integrated models | partial | the dense density is invariant under permutation (`IntOrder`) | log_probability: all permutations, ties included, under the hypotheses of C24.  Mean and variances: under those of C25. |
| C29 integrated transition and process noise | partial | Van Loan (C18) for the augmented model; closed forms by integration | Transition proved for all integrated kernels, instruments and lags; noise blocks proved equal to the integrals when no entry is below the 1e-14 rounding of SHO/IntegratedSHO (C29_noise_refuted without that); the analytic IntegratedSHO blocks equal the Van Loan ones for every underdamped quality.  Quality factors within allclose of 1/2 are excluded (see C12). |
| C30 the dense IntegratedSHOKernel is the double integral of the SHO kernel | partial | double integrals of the underdamped covariance, by cases of the order of the four endpoints (`DenseThms`) | Proved for coordinates (t, delta, instid), every configuration of the exposures, zero lengths, both parametrizations, underdamped parameters.  Lengths below the 1e-8 (or 1e-4 against a point) of the period are rounded to 0 by the kernel (refuted there), and the documented pairs (t, delta) are read as (t, instid) (refuted). |
| C31 dense integrated kernel dispatch is total and symmetric | proved | algebra | For all real numbers; symmetry for every pair of coordinates, errors included. |
| C32 component predictions add up to the total | partial | components are rows of the observation matrix | Proved for every sum expression none of whose summands is a product, whatever the names (distinct, or made distinct by the renaming), with the default solver: component means and variances from get_component_mean, get_all_component_means, predict and PredictedStates are the dense posterior of that component, and the means add up to the total.  Refuted when summands are products (C32_product_refuted: their components are returned as 0). |
| C33 component names are unique | partial | induction on kernel expressions and the counter of names | Proved: names are distinct after construction when they were distinct, or when no summand is a product, the repeated ones can be renamed and no numbered name is in use; construction never fails because of names when names are distinct or no summand is a product.  The unrestricted claim is refuted by C33_key_error_refuted, C33_clash_refuted, C33_matern_refuted. |
| C34 the predict front-end variants agree | proved | computation, generic in the solver | All variants, generic in the solver. |
| C35 condition reports the same log probability as log_probability | proved | computation | For the four solvers. |
| C36 condition(y, X_test) describes the posterior at X_test | partial | computation | Refuted: condition(y, X_test) raises for every input and solver. |
| C37 the mean function takes part in inference | partial | computation | Refuted: the mean function has no influence on log_probability, condition or predict. |
| C38 mixed integrated and instantaneous sums | partial | C24's windowed covariance with instantaneous summands | A sum with an integrated summand goes to the integrated solver, and its log_probability is exact with the instantaneous summands read at the ends of the exposures; equal to the claim (midpoints) when all exposures have one length, refuted otherwise.  Log likelihood only; rounding hypotheses as in C24. |
| C39 every exported kernel works with every matching solver | partial | computation on dispatch and shapes | Proved for both solvers except: Constant fails in both, Exp and every one-dimensional model fail in the parallel one (proved to raise). |
| C40 return_v_S only selects what is returned | partial | computation on the tuples returned | Proved for Kalman of all four solvers and condition of three; ParallelStateSpaceSolver.condition(return_v_S=False) always raises (refuted). |
| C41 zero-length exposures are point measurements | partial | C24 with lengths 0 against C01 | Proved for sorted times (the instantaneous solver needs them, see C44) under the rounding hypotheses of C24. |
| C42 instrument labels are only labels | partial | C24: instruments enter only through the covariance | Proved under the hypotheses of C24. |
| C43 exposures that start simultaneously are handled | partial | determinant of the predicted covariance after a repeated reset | log_probability is exact with tied starts.  Conditioning is refuted: whenever two exposures begin together the smoother solves with a singular predicted covariance. |
| C44 instantaneous results do not depend on the order of the data | partial | C01 with permuted data | Proved when the permuted data are sorted as well (exchange of tied data); refuted for unsorted data. |
| C45 default solver selection | proved | induction on expressions | Exactly as stated, for summands; also shown: an integrated factor inside a Product is not noticed. |
| C46 the generic Matern agrees with the specialised classes | proved | matrices compared entrywise | generic Matern(nu) equals the dedicated classes for nu = 1/2, 3/2, 5/2. |
| C47 the dense SHOKernel is the SHO covariance | partial | trigonometry and algebra of the SHO parameters | Proved for Q > 1/2; refuted for Q < 1/2. |
| C48 leaves of dense kernels | partial | induction on expressions | Proved for all=False; refuted for all=True. |
| C49 inference depends on the kernel through its covariance function only | partial | C01-C03 and extensionality of the dense formulas (`TransferThms`, `TransferUnits`) | Proved for all kernels under the hypotheses of C01-C03, for the default sequential solver; the laws of + and * hold without any. Hypothesis gp_of: the data conditions of C01 and no process noise entry flushed to 0 (steps_kept; nothing to assume for kernels without SHO, Scale, Custom); C01_flush_refuted shows what happens without. |
| C50 inference does not know the direction of time | partial | C01-C03 and permutation invariance of the dense formulas | Proved for all instantaneous kernels. Hypothesis gp_of: the data conditions of C01 and no process noise entry flushed to 0 (steps_kept; nothing to assume for kernels without SHO, Scale, Custom); C01_flush_refuted shows what happens without. |
| C51 the likelihood factorises into one-datum predictions | partial | Schur complement of the dense covariance bordered by one datum (`Border`, `DenseMore`) | Proved for every position p, ties included. Hypothesis gp_of: the data conditions of C01 and no process noise entry flushed to 0 (steps_kept; nothing to assume for kernels without SHO, Scale, Custom); C01_flush_refuted shows what happens without. |
| C52 more data never make a prediction less certain | partial | rank-one update from the same Schur complement | Proved for every position p and all test times. Hypothesis gp_of: the data conditions of C01 and no process noise entry flushed to 0 (steps_kept; nothing to assume for kernels without SHO, Scale, Custom); C01_flush_refuted shows what happens without. |
| C53 results do not depend on the units of the data and of time | partial | homogeneity of the dense formulas; documented covariances under rescaling | Proved for all c <> 0 and a > 0 under hypothesis gp_of: the data conditions of C01 and no process noise entry flushed to 0 (steps_kept; nothing to assume for kernels without SHO, Scale, Custom).  C53_flush_refuted: without it the change of units fails for SHO (c = 1e-8). |
| C54 integrated models do not depend on units, the zero of time or its direction | partial | C24-C26 and the second antiderivative of the covariance under an affine change of the lag (`IntUnits`) | log_probability for the exposures of C24; conditioning and prediction for those of C25 and C26 (smooth_of: no IntegratedCosine, no tied starts, an exposure that ends last).  int_gp_of includes exposure_steps_kept (no process noise entry flushed to 0), void without IntegratedSHO (C24_plain). |
| C55 variances of integrated models: bounds, added exposures, leave one out | partial | double Riemann sums converge uniformly, so the averaged covariance is semidefinite (`MeanPsd`); Schur complement (`Border`) | Bounds, monotonicity and factorisation for the exposures of C25 and C26 (smooth_of); int_gp_of includes exposure_steps_kept (no process noise entry flushed to 0), void without IntegratedSHO (C24_plain).  C55_covariance needs none of this. |

## Trusted base

* Coq's kernel.
* The axioms below, all of Coq's standard library, as listed by `Print Assumptions`.
* The faithfulness of the model to the Python text: see the comments in `Model/`.
* The behaviour of JAX and numpy primitives as stated in `Model/Jax.v`, `Model/Parallel.v` and the comments.
* Statements: `Spec/` is what the theorems mean.

Axioms:

* D1 `ClassicalDedekindReals.sig_forall_dec`
* D2 `ClassicalDedekindReals.sig_not_dec`
* FE `FunctionalExtensionality.functional_extensionality_dep`
* ID `ClassicalEpsilon.constructive_indefinite_description`
* CL `Classical_Prop.classic`

What `Print Assumptions` lists for each theorem:

* D1, D2, FE: `C31_one_case`, `C31_symmetric`, `C47_underdamped_partial`.
* D1, D2, FE, CL: `C47_overdamped_refuted`.
* D1, D2, FE, ID, CL: `C01_log_probability`, `C01_defined`, `C01_evaluate_defined`, `C01_flush_refuted`, `C02_condition`, `C02_defined`, `C02_single_datum_refuted`, `C03_predict`, `C03_kept_always`, `C04_guards`, `C04_finite`, `C05_condition`, `C05_predict`, `C05_order`, `C06_log_probability`, `C06_condition_predict`, `C06_exp_refuted`, `C06_tuple_refuted`, `C07_filter_elements`, `C07_filter_scan`, `C08_predict_at_data`, `C09_condition_linear`, `C09_predict_linear`, `C09_covariances`, `C10_log_probability`, `C10_condition_predict`, `C10_defined`, `C11_transition_composes`, `C11_transition_defined`, `C11_constant_refuted`, `C12_transition_is_expm`, `C12_sho_band_refuted`, `C13_process_noise`, `C13_flush_refuted`, `C13_scale_refuted`, `C14_stationary_sde`, `C14_noise_psd`, `C14_flush_refuted`, `C15_evaluate_documented`, `C15_evaluate_symmetric`, `C15_evaluate_variance`, `C15_evaluate_defined`, `C15_sho_docstring_refuted`, `C15_sho_band_refuted`, `C15_custom_asymmetric_refuted`, `C16_gram_psd`, `C17_sum_product`, `C17_raises`, `C17_contract`, `C18_Q`, `C18_Phibar`, `C18_blocks`, `C18_integrable`, `C19_default`, `C19_kernel`, `C20_real_nonneg`, `C20_sum`, `C20_exp`, `C20_matern32`, `C20_matern52`, `C20_sho`, `C20_fourier`, `C20_everywhere_refuted`, `C20_cosine_singular`, `C20_constant_singular`, `C21_error_bound_refuted`, `C21_error_bound_every_order_refuted`, `C21_error_partial`, `C22_scale_evaluate_partial`, `C22_scale_noise_refuted`, `C23_solvers`, `C24_log_probability`, `C24_plain`, `C24_base_defined`, `C24_defined`, `C24_overlap_refuted`, `C25_condition`, `C25_defined`, `C25_singular`, `C25_cosine_refuted`, `C25_zero_last_refuted`, `C26_predict`, `C26_plain`, `C27_log_probability`, `C27_condition_predict`, `C27_first_end_refuted`, `C27_exp_refuted`, `C28_log_probability`, `C28_condition`, `C29_transition`, `C29_noise_partial`, `C29_analytic`, `C29_noise_refuted`, `C30_evaluate_partial`, `C30_rho_tau_partial`, `C30_pair_refuted`, `C30_short_refuted`, `C32_component_mean`, `C32_all_component_means`, `C32_predict_at_data`, `C32_predict`, `C32_predicted_states`, `C32_add_at_data`, `C32_add`, `C32_product_refuted`, `C33_distinct`, `C33_kept`, `C33_condition_keeps_names`, `C33_never_fails`, `C33_key_error_refuted`, `C33_clash_refuted`, `C33_matern_refuted`, `C34_predict_with_data`, `C34_predict_with_data_raises`, `C34_predict_without_data`, `C34_predict_conditioned_with_data`, `C34_predict_loc`, `C34_full_state`, `C35_condition_log_probability`, `C36_condition_test_raises`, `C36_refuted`, `C37_mean_ignored`, `C37_refuted`, `C38_solver`, `C38_log_probability`, `C38_midpoints_partial`, `C38_midpoints_refuted`, `C39_sequential`, `C39_parallel`, `C39_constant_fails`, `C39_exp_parallel_fails`, `C39_dimension1_parallel_fails`, `C39_refuted`, `C40_kalman`, `C40_condition`, `C40_parallel_raises`, `C40_parallel_refuted`, `C41_points`, `C42_relabel`, `C43_log_probability`, `C43_singular`, `C43_condition_refuted`, `C44_order_partial`, `C44_refuted`, `C45_default_solver`, `C45_needs_tuple`, `C45_product_not_noticed`, `C46_matern12`, `C46_matern32`, `C46_matern52`, `C49_log_probability`, `C49_condition_predict`, `C49_algebra`, `C49_defined`, `C49_condition_defined`, `C50_log_probability`, `C50_condition_predict`, `C51_leave_one_out`, `C52_variance`, `C53_data_units`, `C53_amplify`, `C53_time_units`, `C53_flush_refuted`, `C54_time`, `C54_dilate`, `C54_data_units`, `C54_amplify`, `C55_covariance`, `C55_bounds`, `C55_variance`, `C55_leave_one_out`.
* D1, FE, ID, CL: `C23_states`, `C23_order`.
* nothing (closed under the global context): `C07_filter_schedule`, `C07_filter_inverts`, `C07_smoother_schedule`, `C22_scalar_mul_refuted`, `C48_sums`, `C48_all_refuted`.
