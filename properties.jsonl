{"id": "C01", "title": "log_probability is the exact GP marginal likelihood", "statement": "For an instantaneous kernel, GaussianProcess(kernel, X, diag=d).log_probability(y) equals log N(y; 0, K + diag(d)), where K[i,j] = kernel.evaluate(X[i], X[j]): the O(N) recursion computes the same number as the dense multivariate normal.", "quantifier": "every number of data N >= 1, every non-decreasing time array (ties allowed), every y, every strictly positive diag, every kernel that satisfies the state space contract (built-in kernels with positive parameters, their sums and products)", "why_tests_cant": "tests compare a handful of random data sets against tinygp to a tolerance; they cannot cover every N, spacing, tie pattern and kernel combination", "anchors": ["src/smolgp/gp.py:GaussianProcess.log_probability", "src/smolgp/gp.py:GaussianProcess._compute_log_prob", "src/smolgp/solvers/kalman.py:kalman_filter", "src/smolgp/kernels/base.py:StateSpaceModel.evaluate"]}
{"id": "C02", "title": "condition returns the exact posterior at the data", "statement": "After `_, g = gp.condition(y)`, g.loc[i] and g.variance[i] equal the dense GP posterior mean (K (K+D)^-1 y)[i] and variance (K - K (K+D)^-1 K)[i,i] of the noise-free process at X[i].", "quantifier": "every N >= 1, every non-decreasing time array, every y, every positive diag, every kernel satisfying the state space contract", "why_tests_cant": "finite tests only sample a few data sets; the smoother's backward recursion can be wrong only at boundaries or ties", "anchors": ["src/smolgp/gp.py:GaussianProcess.condition", "src/smolgp/gp.py:ConditionedStates.project_at_data", "src/smolgp/solvers/rts.py:rts_smoother"]}
{"id": "C03", "title": "predict is the exact posterior at arbitrary test times", "statement": "g.predict(X_test, return_var=True) returns at every test time t* the dense GP posterior mean k*(K+D)^-1 y and variance k** - k*(K+D)^-1 k*^T, whether t* lies before the first datum, between data, exactly on a datum, or after the last.", "quantifier": "every real test time (any order, any number), every N >= 1 sorted data set, every y, every positive diag, every kernel satisfying the state space contract", "why_tests_cant": "the three-way case split (retrodict, interpolate, extrapolate) has boundaries at every data time; tests only hit generic points", "anchors": ["src/smolgp/gp.py:GaussianProcess.predict", "src/smolgp/solvers/solver.py:StateSpaceSolver.predict"]}
{"id": "C04", "title": "no singular solve and no -inf sentinel on valid input", "statement": "For valid input every innovation variance is strictly positive and every matrix the filter, smoother and predictor invert is nonsingular, so conditioning and prediction never divide by zero and log_probability never takes its '-inf because not finite' branch.", "quantifier": "every valid kernel, every sorted data set, every positive diag, every test time", "why_tests_cant": "absence of a division by zero for all inputs cannot be established by sampling inputs", "anchors": ["src/smolgp/solvers/kalman.py:kalman_filter", "src/smolgp/solvers/rts.py:rts_smoother", "src/smolgp/solvers/solver.py:StateSpaceSolver.predict", "src/smolgp/gp.py:GaussianProcess._compute_log_prob"]}
{"id": "C05", "title": "reported variances are sane", "statement": "Every variance reported by condition and predict lies between 0 and the prior variance kernel.evaluate(t,t), the smoothed variance never exceeds the filtered one, and the filtered one never exceeds the predicted one.", "quantifier": "every valid kernel, sorted data set, positive diag, test time", "why_tests_cant": "an inequality over all inputs; tests on random data cannot exclude a negative variance somewhere", "anchors": ["src/smolgp/gp.py:GaussianProcess.predict", "src/smolgp/gp.py:GaussianProcess.condition", "src/smolgp/solvers/kalman.py:kalman_filter", "src/smolgp/solvers/rts.py:rts_smoother"]}
{"id": "C06", "title": "the parallel solver computes the same answer as the sequential one", "statement": "GaussianProcess(..., solver=ParallelStateSpaceSolver) gives the same log_probability, the same conditioned means and variances and the same predictions as the default solver.", "quantifier": "every N >= 1, every sorted data set, every y, every positive diag, every kernel satisfying the state space contract", "why_tests_cant": "tests compare the two solvers on a few lengths; the scan's recursion tree differs for every N", "anchors": ["src/smolgp/solvers/parallel/kalman.py:make_associative_params", "src/smolgp/solvers/parallel/kalman.py:_combine_per_pair", "src/smolgp/solvers/parallel/kalman.py:postprocess", "src/smolgp/solvers/parallel/rts.py:make_associative_params", "src/smolgp/solvers/parallel/rts.py:_combine_per_pair", "src/smolgp/solvers/parallel/solver.py:ParallelStateSpaceSolver"]}
{"id": "C07", "title": "the parallel result does not depend on the evaluation schedule", "statement": "The pairwise combination used by the parallel filter and smoother is associative on every element that can arise, and every matrix it inverts is nonsingular, so any bracketing of the combination (any device count, any associative_scan schedule) yields the same prefix results.", "quantifier": "every bracketing of every sequence of reachable elements", "why_tests_cant": "the number of bracketings grows as the Catalan numbers; tests exercise exactly one per length", "anchors": ["src/smolgp/solvers/parallel/kalman.py:_combine_per_pair", "src/smolgp/solvers/parallel/rts.py:_combine_per_pair", "src/smolgp/solvers/integrated/parallel/kalman.py:_combine_per_pair", "src/smolgp/solvers/integrated/parallel/rts.py:_combine_per_pair"]}
{"id": "C08", "title": "predicting at the data reproduces condition", "statement": "g.predict(X, return_var=True) evaluated at the training times returns exactly (g.loc, g.variance), which is also what g.predict(None, return_var=True) returns.", "quantifier": "every sorted data set including repeated times, every y, every positive diag, every valid kernel", "why_tests_cant": "goes through two different code paths (searchsorted interpolation vs stored smoothed states) that must agree at every boundary", "anchors": ["src/smolgp/gp.py:GaussianProcess.predict", "src/smolgp/gp.py:ConditionedStates.project_at_data", "src/smolgp/solvers/solver.py:StateSpaceSolver.predict"]}
{"id": "C09", "title": "the posterior mean is linear in the data and the variances ignore it", "statement": "loc and predicted means are linear functions of y, and variances (and every filter and smoother covariance) do not depend on y at all.", "quantifier": "every pair of data vectors, every scalar combination, every N, every kernel, every solver input", "why_tests_cant": "a functional equation over all y", "anchors": ["src/smolgp/solvers/kalman.py:kalman_filter", "src/smolgp/solvers/rts.py:rts_smoother", "src/smolgp/solvers/solver.py:StateSpaceSolver.predict"]}
{"id": "C10", "title": "results are invariant under a shift of the time origin", "statement": "Adding a constant to all data times (and to all test times) changes neither log_probability nor the conditioned nor the predicted means and variances.", "quantifier": "every shift, every data set, every kernel whose observation model does not depend on time", "why_tests_cant": "quantifies over a continuum of shifts; floating point tests only see tolerances", "anchors": ["src/smolgp/solvers/kalman.py:kalman_filter", "src/smolgp/solvers/rts.py:rts_smoother", "src/smolgp/solvers/solver.py:StateSpaceSolver.predict"]}
{"id": "C11", "title": "transition matrices compose", "statement": "For every kernel, transition_matrix(t,t) is the identity and transition_matrix(s,u) = transition_matrix(t,u) @ transition_matrix(s,t): inserting an extra time point does not change the model.", "quantifier": "all times s <= t <= u and all positive parameters of every built-in kernel (SHO in its three damping regimes), and all sums and products", "why_tests_cant": "identity over a continuum of times and parameters", "anchors": ["src/smolgp/kernels/base.py:SHO.transition_matrix", "src/smolgp/kernels/base.py:Exp.transition_matrix", "src/smolgp/kernels/base.py:Matern32.transition_matrix", "src/smolgp/kernels/base.py:Matern52.transition_matrix", "src/smolgp/kernels/base.py:Cosine.transition_matrix", "src/smolgp/kernels/base.py:Sum.transition_matrix", "src/smolgp/kernels/base.py:Product.transition_matrix"]}
{"id": "C12", "title": "hand-written transition matrices equal the matrix exponential", "statement": "Each analytic transition_matrix(t1,t2) equals expm(design_matrix() * (t2-t1)), i.e. what the base class default would compute.", "quantifier": "all time lags (any sign) and all positive parameters of every built-in kernel, sums and products", "why_tests_cant": "an identity between transcendental matrix functions; tests evaluate it at a few lags to a tolerance", "anchors": ["src/smolgp/kernels/base.py:StateSpaceModel.transition_matrix", "src/smolgp/kernels/base.py:SHO.transition_matrix", "src/smolgp/kernels/base.py:Matern32.transition_matrix", "src/smolgp/kernels/base.py:Matern52.transition_matrix", "src/smolgp/kernels/base.py:Cosine.transition_matrix", "src/smolgp/kernels/base.py:Exp.transition_matrix"]}
{"id": "C13", "title": "hand-written process noise equals the stationarity formula", "statement": "Each analytic process_noise(t1,t2) equals Pinf - A Pinf A^T with A = transition_matrix(t1,t2) and Pinf = stationary_covariance(), i.e. what the base class default would compute.", "quantifier": "all time lags and all positive parameters of every built-in kernel, sums and products", "why_tests_cant": "an identity between transcendental matrix functions", "anchors": ["src/smolgp/kernels/base.py:StateSpaceModel.process_noise", "src/smolgp/kernels/base.py:SHO.process_noise", "src/smolgp/kernels/base.py:Exp.process_noise", "src/smolgp/kernels/base.py:Matern32.process_noise", "src/smolgp/kernels/base.py:Matern52.process_noise", "src/smolgp/kernels/base.py:Cosine.process_noise", "src/smolgp/kernels/base.py:Product.process_noise"]}
{"id": "C14", "title": "the advertised model matrices are a stationary linear SDE", "statement": "For every kernel design_matrix F, noise_effect_matrix L, noise Qc and stationary_covariance Pinf satisfy F Pinf + Pinf F^T + L Qc L^T = 0, Pinf is symmetric positive definite, and process_noise is symmetric positive semidefinite for non-negative lags.", "quantifier": "all positive parameters, all non-negative lags, every built-in kernel, sums and products", "why_tests_cant": "positive semidefiniteness for all lags cannot be sampled", "anchors": ["src/smolgp/kernels/base.py:StateSpaceModel", "src/smolgp/kernels/base.py:SHO", "src/smolgp/kernels/base.py:Matern52", "src/smolgp/kernels/base.py:Sum", "src/smolgp/kernels/base.py:Product"]}
{"id": "C15", "title": "kernel.evaluate equals the documented covariance function", "statement": "evaluate(x1,x2) of Exp, Matern32, Matern52, Cosine, SHO (under-, critically and overdamped) equals the closed formula in the class documentation of |x1-x2|, is symmetric, and evaluate(x,x) = sigma^2.", "quantifier": "all pairs of times, all positive parameters", "why_tests_cant": "a formula over a continuum; a sign or regime error can hide between sampled parameters (the SHO docstring itself has its coefficients swapped)", "anchors": ["src/smolgp/kernels/base.py:StateSpaceModel.evaluate", "src/smolgp/kernels/base.py:SHO", "src/smolgp/kernels/base.py:Exp", "src/smolgp/kernels/base.py:Matern32", "src/smolgp/kernels/base.py:Matern52", "src/smolgp/kernels/base.py:Cosine"]}
{"id": "C16", "title": "every kernel is a valid covariance function", "statement": "For any list of times the matrix kernel(X, X) is symmetric positive semidefinite, also for sums and products of kernels.", "quantifier": "every finite list of times (unsorted, repeated), every kernel satisfying the state space contract, every sum and product", "why_tests_cant": "positive semidefiniteness of every Gram matrix of every size", "anchors": ["src/smolgp/kernels/base.py:StateSpaceModel.evaluate", "src/smolgp/kernels/base.py:Sum", "src/smolgp/kernels/base.py:Product"]}
{"id": "C17", "title": "k1 + k2 and k1 * k2 mean the sum and product of covariances", "statement": "(k1+k2).evaluate(x,y) = k1.evaluate(x,y)+k2.evaluate(x,y) and (k1*k2).evaluate(x,y) = k1.evaluate(x,y)*k2.evaluate(x,y), for arbitrarily nested expressions; composition preserves the state space contract.", "quantifier": "all kernels, all nestings, all pairs of times", "why_tests_cant": "arbitrary expression trees", "anchors": ["src/smolgp/kernels/base.py:Sum", "src/smolgp/kernels/base.py:Product", "src/smolgp/kernels/base.py:StateSpaceModel.evaluate"]}
{"id": "C18", "title": "the Van Loan helpers compute the integrals they document", "statement": "Q_from_VanLoan(F,L,Qc,dt) = integral_0^dt exp(F(dt-s)) L Qc L^T exp(F(dt-s))^T ds, Phibar_from_VanLoan(F,dt) = integral_0^dt exp(Fs) ds, and the blocks of VanLoan(F,L,Qc,dt) used for integrated kernels give the cross and double integrals.", "quantifier": "all square matrices F of every dimension, all L, Qc symmetric, all dt", "why_tests_cant": "identity between matrix exponentials and integrals in every dimension", "anchors": ["src/smolgp/helpers.py:Q_from_VanLoan", "src/smolgp/helpers.py:Phibar_from_VanLoan", "src/smolgp/helpers.py:VanLoan"]}
{"id": "C19", "title": "the two ways of computing process noise agree", "statement": "StateSpaceModel.process_noise(t1,t2,use_van_loan=True) equals process_noise(t1,t2) (the stationary-covariance form) for any user-defined or built-in model whose Pinf solves the Lyapunov equation.", "quantifier": "all models with F Pinf + Pinf F^T + L Qc L^T = 0, all lags, every dimension", "why_tests_cant": "quantifies over all models of all dimensions", "anchors": ["src/smolgp/kernels/base.py:StateSpaceModel.process_noise", "src/smolgp/helpers.py:Q_from_VanLoan"]}
{"id": "C20", "title": "power spectral densities", "statement": "kernel.psd(w) is real and non-negative, the psd of k1+k2 is the sum of the psds, and the psd of SHO, Exp and Matern32 equals the textbook rational spectrum of the documented process.", "quantifier": "all frequencies and all positive parameters", "why_tests_cant": "identity over a continuum", "anchors": ["src/smolgp/kernels/base.py:StateSpaceModel.psd"]}
{"id": "C21", "title": "ExpSineSquared is the documented periodic kernel up to its stated error bound", "statement": "evaluate of ExpSineSquared(period, gamma, sigma, order=J) differs from sigma^2 exp(-gamma sin^2(pi r)) by at most sigma^2 * error_bound().", "quantifier": "all periods, gammas, orders J >= 1 and times", "why_tests_cant": "a bound over a continuum of parameters; tests only check default orders", "anchors": ["src/smolgp/kernels/base.py:ExpSineSquared", "src/smolgp/kernels/base.py:ExpSineSquared.error_bound", "src/smolgp/kernels/base.py:ExpSineSquared.PeriodicTerm"]}
{"id": "C22", "title": "scaling a kernel by a number scales its covariance", "statement": "a * kernel and kernel * a (a a positive scalar) give a kernel whose evaluate is a times the original and whose GP is the GP with that covariance.", "quantifier": "all kernels, all positive scalars", "why_tests_cant": "holds or fails uniformly; requires reasoning about every later use of the scaled kernel", "anchors": ["src/smolgp/kernels/base.py:StateSpaceModel.__mul__", "src/smolgp/kernels/base.py:StateSpaceModel.__rmul__", "src/smolgp/kernels/base.py:Scale"]}
{"id": "C23", "title": "integrated solver bookkeeping", "statement": "The integrated solvers turn N exposures into 2N states sorted in time, with exactly one start and one end state per exposure at t-delta/2 and t+delta/2, the start of every positive-length exposure before its end, ends before starts at equal times; and results at the data are returned in the user's original order.", "quantifier": "all N, all midpoints, lengths >= 0, instrument ids, any order of the input", "why_tests_cant": "permutation and tie handling over all inputs", "anchors": ["src/smolgp/solvers/integrated/solver.py:IntegratedStateSpaceSolver.__init__", "src/smolgp/solvers/integrated/parallel/solver.py:ParallelIntegratedStateSpaceSolver.__init__", "src/smolgp/gp.py:ConditionedStates.project_at_data"]}
{"id": "C24", "title": "integrated log_probability is exact", "statement": "For an integrated kernel log_probability(y) equals log N(y; 0, Kint + diag(d)) where Kint[i,j] is the double average of the base kernel over the two exposures (point evaluation for zero-length exposures).", "quantifier": "all N, all exposures possibly overlapping across instruments (exposures of one instrument do not overlap), any input order, all y, positive diag", "why_tests_cant": "tests use a few exposure patterns; overlap patterns are combinatorial", "anchors": ["src/smolgp/solvers/integrated/kalman.py:integrated_kalman_filter", "src/smolgp/solvers/integrated/solver.py:IntegratedStateSpaceSolver", "src/smolgp/kernels/integrated.py:IntegratedStateSpaceModel"]}
{"id": "C25", "title": "integrated conditioning is exact", "statement": "condition(y) with an integrated kernel returns the dense posterior mean and variance of each exposure average, in the user's order.", "quantifier": "same as C24, with the next state strictly later than every exposure start (otherwise the smoother's matrix is singular, see C43)", "why_tests_cant": "overlap patterns are combinatorial", "anchors": ["src/smolgp/solvers/integrated/rts.py:integrated_rts_smoother", "src/smolgp/gp.py:ConditionedStates.project_at_data"]}
{"id": "C26", "title": "integrated prediction of the latent process is exact", "statement": "predict at test times with an integrated kernel returns the dense posterior of the instantaneous process given the exposure averages, before, during, between and after exposures.", "quantifier": "same as C25, all real test times", "why_tests_cant": "test times can fall inside any subset of overlapping exposures", "anchors": ["src/smolgp/solvers/integrated/solver.py:IntegratedStateSpaceSolver.predict", "src/smolgp/kernels/integrated.py:IntegratedStateSpaceModel.observation_matrix"]}
{"id": "C27", "title": "the parallel integrated solver computes the same answer as the sequential one", "statement": "GaussianProcess(..., solver=ParallelIntegratedStateSpaceSolver) gives the same likelihood, conditioned states and predictions as IntegratedStateSpaceSolver.", "quantifier": "all exposure sets, all y, positive diag", "why_tests_cant": "scan tree differs for every length; first-state special case", "anchors": ["src/smolgp/solvers/integrated/parallel/kalman.py:make_associative_params", "src/smolgp/solvers/integrated/parallel/rts.py:make_associative_params", "src/smolgp/solvers/integrated/parallel/solver.py:ParallelIntegratedStateSpaceSolver"]}
{"id": "C28", "title": "order of the observations does not matter for integrated models", "statement": "Permuting the exposures (and y, diag) of an integrated GP leaves log_probability unchanged and permutes loc and variance accordingly.", "quantifier": "all permutations of all data sets with distinct state times or ties between independent states", "why_tests_cant": "N! permutations", "anchors": ["src/smolgp/solvers/integrated/solver.py:IntegratedStateSpaceSolver.__init__", "src/smolgp/gp.py:ConditionedStates.project_at_data"]}
{"id": "C29", "title": "integrated transition and process noise", "statement": "For integrated kernels transition_matrix and process_noise are those of the joint process (x, integral of x): the lower row is the integral of the base transition and the noise blocks are the corresponding integrals; IntegratedSHO's analytic blocks equal the Van Loan ones in the underdamped case.", "quantifier": "all lags >= 0, all parameters, any number of instruments", "why_tests_cant": "identity over a continuum", "anchors": ["src/smolgp/kernels/integrated.py:IntegratedStateSpaceModel.transition_matrix", "src/smolgp/kernels/integrated.py:IntegratedStateSpaceModel.process_noise", "src/smolgp/kernels/integrated.py:IntegratedSHO.integrated_transition_matrix", "src/smolgp/kernels/integrated.py:IntegratedSHO.integrated_process_noise"]}
{"id": "C30", "title": "the dense IntegratedSHOKernel is the double integral of the SHO kernel", "statement": "kernels.dense.IntegratedSHOKernel.evaluate((t1,d1),(t2,d2)) equals the average of the SHO covariance over the two exposures, in every overlap configuration and for zero-length exposures.", "quantifier": "all midpoints and lengths, underdamped parameters", "why_tests_cant": "piecewise closed form with many cases", "anchors": ["src/smolgp/kernels/dense.py:IntegratedSHOKernel", "src/smolgp/kernels/dense.py:SHOKernel"]}
{"id": "C31", "title": "dense integrated kernel dispatch is total and symmetric", "statement": "The case analysis of IntegratedSHOKernel.evaluate covers every pair of exposures with exactly one case, and evaluate(X1,X2) = evaluate(X2,X1).", "quantifier": "all pairs of exposures", "why_tests_cant": "boundary cases (touching exposures, containment, equal edges) have measure zero in random tests", "anchors": ["src/smolgp/kernels/dense.py:IntegratedSHOKernel.evaluate"]}
{"id": "C32", "title": "component predictions add up to the total", "statement": "For a model that is a sum of components, the component means returned by get_all_component_means / predict(kernel=name) / PredictedStates.get_component add up to the total mean, and each equals the posterior mean of that component.", "quantifier": "every sum expression with distinct component names, every data set", "why_tests_cant": "arbitrary expression trees and name clashes", "anchors": ["src/smolgp/gp.py:GaussianProcess.get_all_component_means", "src/smolgp/gp.py:GaussianProcess.get_component_mean", "src/smolgp/gp.py:PredictedStates.get_component", "src/smolgp/kernels/base.py:StateSpaceModel.observation_model", "src/smolgp/kernels/base.py:Sum.observation_model", "src/smolgp/kernels/base.py:Product.observation_model"]}
{"id": "C33", "title": "component names are unique", "statement": "After constructing a GaussianProcess the summand names of gp.kernel are pairwise distinct, and construction never fails because of names.", "quantifier": "every kernel expression and every choice of user-supplied names", "why_tests_cant": "arbitrary trees and strings", "anchors": ["src/smolgp/gp.py:assign_unique_kernel_names", "src/smolgp/kernels/base.py:extract_leaf_kernels"]}
{"id": "C34", "title": "the predict front-end variants agree", "statement": "predict(X_test, y) on an unconditioned GP equals condition(y) followed by predict(X_test); return_full_state followed by .loc/.variance equals the direct call; predict() without X_test returns loc; predict without data on an unconditioned GP is rejected.", "quantifier": "all arguments", "why_tests_cant": "combinations of optional arguments and states", "anchors": ["src/smolgp/gp.py:GaussianProcess.predict", "src/smolgp/gp.py:PredictedStates"]}
{"id": "C35", "title": "condition reports the same log probability as log_probability", "statement": "condition(y).log_probability equals log_probability(y) for every solver.", "quantifier": "all inputs and the four solvers", "why_tests_cant": "two code paths", "anchors": ["src/smolgp/gp.py:GaussianProcess.condition", "src/smolgp/gp.py:GaussianProcess.log_probability"]}
{"id": "C36", "title": "condition(y, X_test) describes the posterior at X_test", "statement": "As documented, condition(y, X_test) returns the log probability and a GP object whose loc/variance are the posterior at X_test.", "quantifier": "all inputs and the four solvers", "why_tests_cant": "needs a statement about every input (it in fact never succeeds)", "anchors": ["src/smolgp/gp.py:GaussianProcess.condition", "src/smolgp/solvers/solver.py:StateSpaceSolver.predict"]}
{"id": "C37", "title": "the mean function takes part in inference", "statement": "GaussianProcess(..., mean=m) models y ~ N(m(X), K+D): log_probability(y) equals the zero-mean log probability of y - m(X).", "quantifier": "all mean functions and data", "why_tests_cant": "functional statement over all mean functions", "anchors": ["src/smolgp/gp.py:GaussianProcess.__init__", "src/smolgp/gp.py:GaussianProcess.log_probability", "src/smolgp/gp.py:GaussianProcess.condition"]}
{"id": "C38", "title": "mixed integrated and instantaneous sums", "statement": "A sum of an integrated and an instantaneous kernel is handled by the integrated solver, and the instantaneous component contributes its covariance at the measurement times (midpoints).", "quantifier": "all exposure patterns", "why_tests_cant": "depends on exposure lengths relative to one another", "anchors": ["src/smolgp/kernels/__init__.py", "src/smolgp/gp.py:GaussianProcess.__init__", "src/smolgp/solvers/integrated/kalman.py:integrated_kalman_filter"]}
{"id": "C39", "title": "every exported kernel works with every matching solver", "statement": "Each instantaneous built-in kernel can be used with StateSpaceSolver and ParallelStateSpaceSolver without raising.", "quantifier": "all kernels, solvers and data", "why_tests_cant": "requires enumerating code paths including Python-level type errors", "anchors": ["src/smolgp/kernels/base.py:Constant.transition_matrix", "src/smolgp/kernels/base.py:Exp.transition_matrix", "src/smolgp/solvers/parallel/kalman.py:make_associative_params"]}
{"id": "C40", "title": "return_v_S only selects what is returned", "statement": "Passing return_v_S=True or False to a solver's Kalman/condition changes only whether innovations are returned, not whether the call succeeds nor the states.", "quantifier": "all solvers and inputs", "why_tests_cant": "two code paths", "anchors": ["src/smolgp/solvers/kalman.py:KalmanFilter", "src/smolgp/solvers/parallel/solver.py:ParallelStateSpaceSolver.condition", "src/smolgp/solvers/solver.py:StateSpaceSolver.condition"]}
{"id": "C41", "title": "zero-length exposures are point measurements", "statement": "An integrated GP all of whose exposures have zero length gives the same likelihood as the instantaneous GP of the base kernel at the same times.", "quantifier": "all data sets with delta = 0", "why_tests_cant": "degenerate limit with ties at every state", "anchors": ["src/smolgp/solvers/integrated/solver.py:IntegratedStateSpaceSolver", "src/smolgp/kernels/integrated.py:IntegratedStateSpaceModel.observation_matrix"]}
{"id": "C42", "title": "instrument labels are only labels", "statement": "Renaming instrument ids by a permutation of 0..num_insts-1 does not change the likelihood.", "quantifier": "all permutations, all exposure sets", "why_tests_cant": "permutations of labels and overlap patterns", "anchors": ["src/smolgp/kernels/integrated.py:IntegratedStateSpaceModel.reset_matrix", "src/smolgp/kernels/integrated.py:IntegratedStateSpaceModel.observation_matrix"]}
{"id": "C43", "title": "exposures that start simultaneously are handled", "statement": "Two instruments may start exposing at exactly the same time and conditioning still works.", "quantifier": "all exposure sets with tied starts", "why_tests_cant": "ties have measure zero in random tests", "anchors": ["src/smolgp/solvers/integrated/rts.py:integrated_rts_smoother", "src/smolgp/solvers/integrated/solver.py:IntegratedStateSpaceSolver.__init__"]}
{"id": "C44", "title": "instantaneous results do not depend on the order of the data", "statement": "Permuting (X, y, diag) of an instantaneous GP leaves log_probability unchanged.", "quantifier": "all permutations", "why_tests_cant": "N! permutations; tests always sort", "anchors": ["src/smolgp/solvers/kalman.py:kalman_filter", "src/smolgp/solvers/solver.py:StateSpaceSolver"]}
{"id": "C45", "title": "default solver selection", "statement": "If no solver is given the integrated solver is chosen exactly when some summand is an integrated kernel, and then X must be a tuple of coordinates.", "quantifier": "all kernel expressions and coordinates", "why_tests_cant": "arbitrary expression trees (an integrated factor inside a product is not detected)", "anchors": ["src/smolgp/gp.py:GaussianProcess.__init__"]}
{"id": "C46", "title": "the generic Matern agrees with the specialised classes", "statement": "Matern(nu=1/2, 3/2, 5/2) has the same design matrix, noise and (by uniqueness of the Lyapunov solution) the same covariance function as Exp, Matern32 and Matern52.", "quantifier": "all scales and sigmas", "why_tests_cant": "identity over a continuum", "anchors": ["src/smolgp/kernels/base.py:Matern"]}
{"id": "C47", "title": "the dense SHOKernel is the SHO covariance", "statement": "kernels.dense.SHOKernel.evaluate(t1, t2) (and IntegratedSHOKernel on bare times) equals the covariance of the stochastic harmonic oscillator with the given parameters.", "quantifier": "all times, all positive S, w and Q", "why_tests_cant": "damping regimes; tests use underdamped parameters only", "anchors": ["src/smolgp/kernels/dense.py:SHOKernel.evaluate", "src/smolgp/kernels/dense.py:IntegratedSHOKernel.latent_process"]}
{"id": "C48", "title": "leaves of dense kernels", "statement": "dense.extract_leaf_kernels returns the leaves of a kernel below sums, and below sums and products with all=True.", "quantifier": "all kernel trees", "why_tests_cant": "nesting depth", "anchors": ["src/smolgp/kernels/dense.py:extract_leaf_kernels"]}
{"id": "C49", "title": "inference depends on the kernel through its covariance function only", "statement": "Two instantaneous kernels with the same covariance function (different state layouts, e.g. k1+k2 and k2+k1, or Matern(nu=3/2) and Matern32) give the same log_probability, conditioned mean and variance, and predictions; + and * of kernels are commutative, associative and distributive in evaluate.", "quantifier": "all pairs of kernels with equal covariance, all data sets as in C01, all test times", "why_tests_cant": "equality over all kernels and data sets; a test can compare a few pairs only", "anchors": ["src/smolgp/gp.py", "src/smolgp/kernels/base.py:252-420"]}
{"id": "C50", "title": "inference does not know the direction of time", "statement": "Reflecting the time axis (t -> a - t, data reversed) leaves log_probability unchanged, reverses the conditioned mean and variance, and predictions at reflected test times are the same, although the filter then runs over the data in the opposite order.", "quantifier": "all instantaneous kernels, data sets as in C01, a, test times", "why_tests_cant": "the two computations share no intermediate quantity; agreement for all data sets cannot be sampled", "anchors": ["src/smolgp/solvers/kalman.py", "src/smolgp/solvers/rts.py", "src/smolgp/solvers/solver.py"]}
{"id": "C51", "title": "the likelihood factorises into one-datum predictions", "statement": "For every datum p: log_probability of all data = log_probability of the others + log N(y_p; m, s + diag_p) where (m, s) is the prediction at t_p made from the others.", "quantifier": "all instantaneous kernels, data sets as in C01, every position p", "why_tests_cant": "quantified over all data sets, kernels and positions; ties log_probability to predict", "anchors": ["src/smolgp/gp.py", "src/smolgp/solvers/solver.py"]}
{"id": "C52", "title": "more data never make a prediction less certain", "statement": "The predicted variance at any test time does not increase when a datum is added anywhere in the data set.", "quantifier": "all instantaneous kernels, data sets as in C01, positions and test times", "why_tests_cant": "an inequality over all data sets and test times", "anchors": ["src/smolgp/gp.py", "src/smolgp/solvers/solver.py"]}
{"id": "C53", "title": "results do not depend on the units of the data and of time", "statement": "With y -> c y, diag -> c^2 diag and standard deviations times c: log_probability changes by -N ln|c|, means by c, variances by c^2. With t -> a t and length scales times a (frequencies divided by a) nothing changes.", "quantifier": "all c <> 0, a > 0, documented kernels, data sets as in C01, test times", "why_tests_cant": "absolute tolerances in the code break such laws at scales no test tries", "anchors": ["src/smolgp/gp.py", "src/smolgp/kernels/base.py"]}
{"id": "C54", "title": "integrated models do not depend on units, the zero of time or its direction", "statement": "With midpoints a + s t, lengths |s| delta and length scales times |s| (s = -1: time reversed) the log_probability, conditioned and predicted means and variances of an integrated model do not change; with y -> c y, diag -> c^2 diag and standard deviations times c, log_probability changes by -N ln|c|, means by c, variances by c^2.", "quantifier": "all a, s <> 0, c <> 0, sums of integrated kernels, exposures as in C24 (log_probability) and C25 (means and variances), test times", "why_tests_cant": "reversal exchanges the START and END states and reorders the whole state sequence; quantified over all exposures and scales", "anchors": ["src/smolgp/solvers/integrated.py", "src/smolgp/kernels/integrated.py", "src/smolgp/gp.py"]}
{"id": "C55", "title": "variances of integrated models: bounds, added exposures, leave one out", "statement": "The covariance of exposure means is positive semidefinite for any list of exposures; conditioned and predicted variances lie between 0 and the prior variance; adding an exposure never increases a predicted variance; for an exposure of length 0, log_probability of all data = log_probability of the others + log N(y_p; m, s + diag_p) with (m, s) the prediction made from the others.", "quantifier": "all sums of integrated kernels, exposures as in C24/C25, positions and test times", "why_tests_cant": "inequalities over all exposure patterns and test times; semidefiniteness of double averages of the kernel", "anchors": ["src/smolgp/solvers/integrated.py", "src/smolgp/kernels/integrated.py", "src/smolgp/gp.py"]}
