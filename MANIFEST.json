{
 "claims": [
  {
   "property": "C01",
   "status": "partial",
   "theorems": [
    "C01_log_probability",
    "C01_defined",
    "C01_evaluate_defined",
    "C01_flush_refuted"
   ],
   "note": "Exact for every sorted data set (ties allowed), every positive diag and every well-formed kernel expression whose process noise is not flushed to 0 at the steps used (steps_kept, void for kernels without SHO/Scale/Custom); refuted by example where the flush to zero fires."
  },
  {
   "property": "C02",
   "status": "partial",
   "theorems": [
    "C02_condition",
    "C02_defined",
    "C02_single_datum_refuted"
   ],
   "note": "Exact for N >= 2 under the same conditions as C01; condition raises for a single datum (refuted)."
  },
  {
   "property": "C03",
   "status": "partial",
   "theorems": [
    "C03_predict",
    "C03_kept_always"
   ],
   "note": "Posterior mean and variance at every test time, any order and number of test times, ties and extrapolation on both sides; under steps_kept/predict_kept: no process noise entry flushed to 0 over the steps used (void for kernels without SHO/Scale/Custom; the flush is refuted in C01_flush_refuted and C13)."
  },
  {
   "property": "C04",
   "status": "partial",
   "theorems": [
    "C04_guards",
    "C04_finite"
   ],
   "note": "Every predicted covariance is positive definite, every innovation variance > 0, log_probability is finite; under steps_kept (void for kernels without SHO/Scale/Custom): a flushed process noise need not be positive semidefinite, see C14_flush_refuted."
  },
  {
   "property": "C05",
   "status": "partial",
   "theorems": [
    "C05_condition",
    "C05_predict",
    "C05_order"
   ],
   "note": "0 <= variance <= prior variance for condition and predict; smoothed <= filtered <= predicted for every projection; under steps_kept/predict_kept as in C03."
  },
  {
   "property": "C06",
   "status": "partial",
   "theorems": [
    "C06_log_probability",
    "C06_condition_predict",
    "C06_exp_refuted",
    "C06_tuple_refuted"
   ],
   "note": "Proved: log_probability, conditioned means/variances and every form of predict agree, for every sorted data set and every kernel the parallel solver accepts. Refuted: Exp kernels (the parallel solver raises) and predictions with exposure-time coordinates (TypeError)."
  },
  {
   "property": "C07",
   "status": "proved",
   "theorems": [
    "C07_filter_elements",
    "C07_filter_schedule",
    "C07_filter_inverts",
    "C07_smoother_schedule",
    "C07_filter_scan"
   ],
   "note": "Every bracketing, for all elements with positive semidefinite covariances; the elements of the solver are proved to be such under steps_kept (C01), and the inverted matrices nonsingular. The element constructor of the integrated parallel solver is covered by C27."
  },
  {
   "property": "C08",
   "status": "partial",
   "theorems": [
    "C08_predict_at_data"
   ],
   "note": "predict(X) and predict(None) return (loc, variance), repeated times included; under steps_kept (see C01)."
  },
  {
   "property": "C09",
   "status": "proved",
   "theorems": [
    "C09_condition_linear",
    "C09_predict_linear",
    "C09_covariances"
   ],
   "note": "Linearity of loc and predicted means, independence of all covariances from y (sequential solver)."
  },
  {
   "property": "C10",
   "status": "proved",
   "theorems": [
    "C10_log_probability",
    "C10_condition_predict",
    "C10_defined"
   ],
   "note": "Shift of the time origin changes nothing, for every kernel with constant observation model (sequential solver)."
  },
  {
   "property": "C11",
   "status": "partial",
   "theorems": [
    "C11_transition_composes",
    "C11_transition_defined",
    "C11_constant_refuted"
   ],
   "note": "A(0)=I and A(s+t)=A(s)A(t) for every well-formed kernel expression that does not raise; refuted corner: Constant.transition_matrix raises AttributeError."
  },
  {
   "property": "C12",
   "status": "partial",
   "theorems": [
    "C12_transition_is_expm",
    "C12_sho_band_refuted"
   ],
   "note": "transition = expm(F dt) for every sharp kernel expression; refuted inside the SHO critical-damping tolerance band."
  },
  {
   "property": "C13",
   "status": "partial",
   "theorems": [
    "C13_process_noise",
    "C13_flush_refuted",
    "C13_scale_refuted"
   ],
   "note": "Q = Pinf - A Pinf A^T whenever the flush to zero and Scale do not interfere; both corners refuted by example."
  },
  {
   "property": "C14",
   "status": "partial",
   "theorems": [
    "C14_stationary_sde",
    "C14_noise_psd",
    "C14_flush_refuted"
   ],
   "note": "Lyapunov equation, Pinf PD and Q PSD for every well-formed kernel; noise PSD refuted where the flush to zero fires."
  },
  {
   "property": "C15",
   "status": "partial",
   "theorems": [
    "C15_evaluate_documented",
    "C15_evaluate_symmetric",
    "C15_evaluate_variance",
    "C15_evaluate_defined",
    "C15_sho_docstring_refuted",
    "C15_sho_band_refuted",
    "C15_custom_asymmetric_refuted"
   ],
   "note": "evaluate equals the documented covariance for all documented kernels; the SHO docstring formula, the SHO band and asymmetric custom observation rows are refuted."
  },
  {
   "property": "C16",
   "status": "proved",
   "theorems": [
    "C16_gram_psd"
   ],
   "note": "Gram matrices of evaluate are symmetric PSD for every well-formed kernel expression and every set of coordinates."
  },
  {
   "property": "C17",
   "status": "proved",
   "theorems": [
    "C17_sum_product",
    "C17_raises",
    "C17_contract"
   ],
   "note": "Sum and Product act as the sum and product of covariances."
  },
  {
   "property": "C18",
   "status": "proved",
   "theorems": [
    "C18_Q",
    "C18_Phibar",
    "C18_blocks",
    "C18_integrable"
   ],
   "note": "All three helpers, all dimensions and real time steps: equal to the documented integrals (entrywise Riemann integrals, which are shown to exist)."
  },
  {
   "property": "C19",
   "status": "partial",
   "theorems": [
    "C19_default",
    "C19_kernel"
   ],
   "note": "Proved for the default methods under the Lyapunov equation, and for every kernel expression (closed-form noise = Van Loan noise of the declared matrices) under the C12/C13 hypotheses: not in the allclose band, no entry rounded to 0, Scale only with factor 1 or without noise; those corners are refuted in C12 and C13."
  },
  {
   "property": "C20",
   "status": "partial",
   "theorems": [
    "C20_real_nonneg",
    "C20_sum",
    "C20_exp",
    "C20_matern32",
    "C20_matern52",
    "C20_sho",
    "C20_fourier",
    "C20_everywhere_refuted",
    "C20_cosine_singular",
    "C20_constant_singular"
   ],
   "note": "Realness, non-negativity and the sum rule for every kernel expression wherever psd has a value; the rational spectra of SHO, Exp, Matern32 and Matern52 at every frequency; for sums of damped kernels and products of damped with damped or periodic ones psd has a value everywhere and is the Fourier transform of the evaluated covariance. What fails is 'all frequencies' for undamped kernels: Cosine at its own frequency and Constant at 0 invert a singular matrix (C20_everywhere_refuted). Hypothesis sharp_kernel: SHO quality factors that jnp.allclose rounds to 1/2 are excluded from the non-negativity and Fourier theorems."
  },
  {
   "property": "C21",
   "status": "partial",
   "theorems": [
    "C21_error_bound_refuted",
    "C21_error_bound_every_order_refuted",
    "C21_error_partial"
   ],
   "note": "The stated bound exp(1-2/gamma)/(J+1)! is refuted: for every order J (the automatic one included) every small enough gamma violates it at zero lag (C21_error_bound_refuted, C21_error_bound_every_order_refuted). Proved instead for all parameters, orders and times: the error is at most sigma^2 (gamma/2)^m/m!, m = min(J,100)."
  },
  {
   "property": "C22",
   "status": "partial",
   "theorems": [
    "C22_scalar_mul_refuted",
    "C22_scale_evaluate_partial",
    "C22_scale_noise_refuted"
   ],
   "note": "scalar * kernel raises TypeError; a Scale object scales evaluate but not its process noise."
  },
  {
   "property": "C23",
   "status": "proved",
   "theorems": [
    "C23_states",
    "C23_solvers",
    "C23_order"
   ],
   "note": "Both integrated solvers, every input order: 2N sorted states, one start and one end per exposure, ties as stated; results at the data taken from the end state of the exposure in the input order."
  },
  {
   "property": "C24",
   "status": "partial",
   "theorems": [
    "C24_log_probability",
    "C24_plain",
    "C24_base_defined",
    "C24_defined",
    "C24_overlap_refuted"
   ],
   "note": "Proved for every sum of integrated kernels, any number of instruments, overlapping exposures of different instruments, any input order, lengths >= 0, under: no exposure begins during one of the same instrument (without it the result is wrong: C24_overlap_refuted); quality factors not in the allclose band (C12); no process noise entry below the 1e-14 rounding of SHO and IntegratedSHO (nothing to assume for the other kernels).  The rounding is refuted in C29."
  },
  {
   "property": "C25",
   "status": "partial",
   "theorems": [
    "C25_condition",
    "C25_defined",
    "C25_singular",
    "C25_cosine_refuted",
    "C25_zero_last_refuted"
   ],
   "note": "Proved under the hypotheses of C24, for sums without IntegratedCosine, when no two exposures begin at the same time and some exposure ends after all others have begun; with one exposure condition raises (see C02).  The excluded cases are refuted: with IntegratedCosine or tied starts (C43) the smoother solves with a singular matrix, and when a zero-length exposure comes last the reset of its integral is passed back by the smoother and the mean is wrong (C25_zero_last_refuted)."
  },
  {
   "property": "C26",
   "status": "partial",
   "theorems": [
    "C26_predict",
    "C26_plain"
   ],
   "note": "Every list of real test times, before, during, between and after the exposures, under the hypotheses of C25 (which are what is missing).  [test_kept]: the noise over the lags to the neighbouring boundaries is not rounded to 0 (nothing to assume without IntegratedSHO)."
  },
  {
   "property": "C27",
   "status": "partial",
   "theorems": [
    "C27_log_probability",
    "C27_condition_predict",
    "C27_first_end_refuted",
    "C27_exp_refuted"
   ],
   "note": "Log likelihood, conditioning (errors included) and every prediction are equal for all exposure sets whose first boundary is the beginning of an exposure.  Refuted when the first exposure has length 0, and for IntegratedExp, which the parallel solver rejects with a TypeError.  The conditioning theorem assumes C25's [noisy_integrated] and no two exposures beginning together."
  },
  {
   "property": "C28",
   "status": "partial",
   "theorems": [
    "C28_log_probability",
    "C28_condition"
   ],
   "note": "log_probability: all permutations, ties included, under the hypotheses of C24.  Mean and variances: under those of C25."
  },
  {
   "property": "C29",
   "status": "partial",
   "theorems": [
    "C29_transition",
    "C29_noise_partial",
    "C29_analytic",
    "C29_noise_refuted"
   ],
   "note": "Transition proved for all integrated kernels, instruments and lags; noise blocks proved equal to the integrals when no entry is below the 1e-14 rounding of SHO/IntegratedSHO (C29_noise_refuted without that); the analytic IntegratedSHO blocks equal the Van Loan ones for every underdamped quality.  Quality factors within allclose of 1/2 are excluded (see C12)."
  },
  {
   "property": "C30",
   "status": "partial",
   "theorems": [
    "C30_evaluate_partial",
    "C30_rho_tau_partial",
    "C30_pair_refuted",
    "C30_short_refuted"
   ],
   "note": "Proved for coordinates (t, delta, instid), every configuration of the exposures, zero lengths, both parametrizations, underdamped parameters.  Lengths below the 1e-8 (or 1e-4 against a point) of the period are rounded to 0 by the kernel (refuted there), and the documented pairs (t, delta) are read as (t, instid) (refuted)."
  },
  {
   "property": "C31",
   "status": "proved",
   "theorems": [
    "C31_one_case",
    "C31_symmetric"
   ],
   "note": "For all real numbers; symmetry for every pair of coordinates, errors included."
  },
  {
   "property": "C32",
   "status": "partial",
   "theorems": [
    "C32_component_mean",
    "C32_all_component_means",
    "C32_predict_at_data",
    "C32_predict",
    "C32_predicted_states",
    "C32_add_at_data",
    "C32_add",
    "C32_product_refuted"
   ],
   "note": "Proved for every sum expression none of whose summands is a product, whatever the names (distinct, or made distinct by the renaming), with the default solver: component means and variances from get_component_mean, get_all_component_means, predict and PredictedStates are the dense posterior of that component, and the means add up to the total.  Refuted when summands are products (C32_product_refuted: their components are returned as 0)."
  },
  {
   "property": "C33",
   "status": "partial",
   "theorems": [
    "C33_distinct",
    "C33_kept",
    "C33_condition_keeps_names",
    "C33_never_fails",
    "C33_key_error_refuted",
    "C33_clash_refuted",
    "C33_matern_refuted"
   ],
   "note": "Proved: names are distinct after construction when they were distinct, or when no summand is a product, the repeated ones can be renamed and no numbered name is in use; construction never fails because of names when names are distinct or no summand is a product.  The unrestricted claim is refuted by C33_key_error_refuted, C33_clash_refuted, C33_matern_refuted."
  },
  {
   "property": "C34",
   "status": "proved",
   "theorems": [
    "C34_predict_with_data",
    "C34_predict_with_data_raises",
    "C34_predict_without_data",
    "C34_predict_conditioned_with_data",
    "C34_predict_loc",
    "C34_full_state"
   ],
   "note": "All variants, generic in the solver."
  },
  {
   "property": "C35",
   "status": "proved",
   "theorems": [
    "C35_condition_log_probability"
   ],
   "note": "For the four solvers."
  },
  {
   "property": "C36",
   "status": "partial",
   "theorems": [
    "C36_condition_test_raises",
    "C36_refuted"
   ],
   "note": "Refuted: condition(y, X_test) raises for every input and solver."
  },
  {
   "property": "C37",
   "status": "partial",
   "theorems": [
    "C37_mean_ignored",
    "C37_refuted"
   ],
   "note": "Refuted: the mean function has no influence on log_probability, condition or predict."
  },
  {
   "property": "C38",
   "status": "partial",
   "theorems": [
    "C38_solver",
    "C38_log_probability",
    "C38_midpoints_partial",
    "C38_midpoints_refuted"
   ],
   "note": "A sum with an integrated summand goes to the integrated solver, and its log_probability is exact with the instantaneous summands read at the ends of the exposures; equal to the claim (midpoints) when all exposures have one length, refuted otherwise.  Log likelihood only; rounding hypotheses as in C24."
  },
  {
   "property": "C39",
   "status": "partial",
   "theorems": [
    "C39_sequential",
    "C39_parallel",
    "C39_constant_fails",
    "C39_exp_parallel_fails",
    "C39_dimension1_parallel_fails",
    "C39_refuted"
   ],
   "note": "Proved for both solvers except: Constant fails in both, Exp and every one-dimensional model fail in the parallel one (proved to raise)."
  },
  {
   "property": "C40",
   "status": "partial",
   "theorems": [
    "C40_kalman",
    "C40_condition",
    "C40_parallel_raises",
    "C40_parallel_refuted"
   ],
   "note": "Proved for Kalman of all four solvers and condition of three; ParallelStateSpaceSolver.condition(return_v_S=False) always raises (refuted)."
  },
  {
   "property": "C41",
   "status": "partial",
   "theorems": [
    "C41_points"
   ],
   "note": "Proved for sorted times (the instantaneous solver needs them, see C44) under the rounding hypotheses of C24."
  },
  {
   "property": "C42",
   "status": "partial",
   "theorems": [
    "C42_relabel"
   ],
   "note": "Proved under the hypotheses of C24."
  },
  {
   "property": "C43",
   "status": "partial",
   "theorems": [
    "C43_log_probability",
    "C43_singular",
    "C43_condition_refuted"
   ],
   "note": "log_probability is exact with tied starts.  Conditioning is refuted: whenever two exposures begin together the smoother solves with a singular predicted covariance."
  },
  {
   "property": "C44",
   "status": "partial",
   "theorems": [
    "C44_order_partial",
    "C44_refuted"
   ],
   "note": "Proved when the permuted data are sorted as well (exchange of tied data); refuted for unsorted data."
  },
  {
   "property": "C45",
   "status": "proved",
   "theorems": [
    "C45_default_solver",
    "C45_needs_tuple",
    "C45_product_not_noticed"
   ],
   "note": "Exactly as stated, for summands; also shown: an integrated factor inside a Product is not noticed."
  },
  {
   "property": "C46",
   "status": "proved",
   "theorems": [
    "C46_matern12",
    "C46_matern32",
    "C46_matern52"
   ],
   "note": "generic Matern(nu) equals the dedicated classes for nu = 1/2, 3/2, 5/2."
  },
  {
   "property": "C47",
   "status": "partial",
   "theorems": [
    "C47_underdamped_partial",
    "C47_overdamped_refuted"
   ],
   "note": "Proved for Q > 1/2; refuted for Q < 1/2."
  },
  {
   "property": "C48",
   "status": "partial",
   "theorems": [
    "C48_sums",
    "C48_all_refuted"
   ],
   "note": "Proved for all=False; refuted for all=True."
  },
  {
   "property": "C49",
   "status": "partial",
   "theorems": [
    "C49_log_probability",
    "C49_condition_predict",
    "C49_algebra",
    "C49_defined",
    "C49_condition_defined"
   ],
   "note": "Proved for all kernels under the hypotheses of C01-C03, for the default sequential solver; the laws of + and * hold without any. Hypothesis gp_of: the data conditions of C01 and no process noise entry flushed to 0 (steps_kept; nothing to assume for kernels without SHO, Scale, Custom); C01_flush_refuted shows what happens without."
  },
  {
   "property": "C50",
   "status": "partial",
   "theorems": [
    "C50_log_probability",
    "C50_condition_predict"
   ],
   "note": "Proved for all instantaneous kernels. Hypothesis gp_of: the data conditions of C01 and no process noise entry flushed to 0 (steps_kept; nothing to assume for kernels without SHO, Scale, Custom); C01_flush_refuted shows what happens without."
  },
  {
   "property": "C51",
   "status": "partial",
   "theorems": [
    "C51_leave_one_out"
   ],
   "note": "Proved for every position p, ties included. Hypothesis gp_of: the data conditions of C01 and no process noise entry flushed to 0 (steps_kept; nothing to assume for kernels without SHO, Scale, Custom); C01_flush_refuted shows what happens without."
  },
  {
   "property": "C52",
   "status": "partial",
   "theorems": [
    "C52_variance"
   ],
   "note": "Proved for every position p and all test times. Hypothesis gp_of: the data conditions of C01 and no process noise entry flushed to 0 (steps_kept; nothing to assume for kernels without SHO, Scale, Custom); C01_flush_refuted shows what happens without."
  },
  {
   "property": "C53",
   "status": "partial",
   "theorems": [
    "C53_data_units",
    "C53_amplify",
    "C53_time_units",
    "C53_flush_refuted"
   ],
   "note": "Proved for all c <> 0 and a > 0 under hypothesis gp_of: the data conditions of C01 and no process noise entry flushed to 0 (steps_kept; nothing to assume for kernels without SHO, Scale, Custom).  C53_flush_refuted: without it the change of units fails for SHO (c = 1e-8)."
  },
  {
   "property": "C54",
   "status": "partial",
   "theorems": [
    "C54_time",
    "C54_dilate",
    "C54_data_units",
    "C54_amplify"
   ],
   "note": "log_probability for the exposures of C24; conditioning and prediction for those of C25 and C26 (smooth_of: no IntegratedCosine, no tied starts, an exposure that ends last).  int_gp_of includes exposure_steps_kept (no process noise entry flushed to 0), void without IntegratedSHO (C24_plain)."
  },
  {
   "property": "C55",
   "status": "partial",
   "theorems": [
    "C55_covariance",
    "C55_bounds",
    "C55_variance",
    "C55_leave_one_out"
   ],
   "note": "Bounds, monotonicity and factorisation for the exposures of C25 and C26 (smooth_of); int_gp_of includes exposure_steps_kept (no process noise entry flushed to 0), void without IntegratedSHO (C24_plain).  C55_covariance needs none of this."
  }
 ]
}