(** C39: every exported kernel works with every matching solver. *)
From Coq Require Import Reals String.
From mathcomp Require Import all_ssreflect all_algebra.
From Verif.Prelude Require Import Rstruct Psd.
From Verif.Spec Require Import Expm Gp Lti WfKernel Cov CovOf LogNormal Data.
From Verif.Model Require Import Array Jax Ssm Sequential Parallel BaseKernels IntegratedKernels Kernel
  Integrated Frontend SequentialOps Gp.
From Verif.Proofs Require Import KernelThms FitThms FitMore FitLin FrontThms FitExample FitRefute FrontDefined FrontProps.
Import GRing.Theory.
Local Open Scope R_scope.

Theorem C39_sequential : forall k X diag mean y, wf_kernel k -> names_ok k ->
  size (variances diag (num_coords X)) = num_coords X -> num_coords X <> 1%N -> no_constant k ->
  exists g lp c,
  gaussian_process smolgp_ops k X diag mean (SolverClass StateSpaceSolver) = inr g /\
  gp_log_probability smolgp_ops g y = inr lp /\
  gp_condition smolgp_ops g y None None = inr (lp, c) /\
  forall Xt y', exists p, gp_predict smolgp_ops c (Some Xt) y' false None true = inr p.
Proof. exact works_seq. Qed.
Print Assumptions C39_sequential.

Theorem C39_parallel : forall k X diag mean y, wf_kernel k -> names_ok k ->
  size (variances diag (num_coords X)) = num_coords X -> num_coords X <> 1%N -> no_constant k ->
  no_exp k -> md (denote k) <> 1%N -> is_tuple X = false ->
  exists g lp c,
  gaussian_process smolgp_ops k X diag mean (SolverClass ParallelStateSpaceSolver) = inr g /\
  gp_log_probability smolgp_ops g y = inr lp /\
  gp_condition smolgp_ops g y None None = inr (lp, c) /\
  forall Xt y', is_tuple Xt = false ->
    exists p, gp_predict smolgp_ops c (Some Xt) y' false None true = inr p.
Proof. exact works_par. Qed.
Print Assumptions C39_parallel.

Example C39_ex : wf_kernel k_kept /\ names_ok k_kept /\ no_constant k_kept /\
  size (variances diag_ex (num_coords X_ex)) = num_coords X_ex /\ num_coords X_ex <> 1%N.
Proof.
refine (conj k_kept_wf (conj k_kept_names (conj k_kept_no_constant (conj (vd_d X_ex_valid) _)))).
discriminate.
Qed.
Example C39_ex_parallel : let k := Sum (SHO 1 1 1 "a"%string) (Matern52 1 1 "b"%string) in
  wf_kernel k /\ names_ok k /\ no_constant k /\ no_exp k /\ md (denote k) <> 1%N.
Proof. exact par_example. Qed.

(** Kernels that do not work. *)

Theorem C39_constant_fails : forall kd k X diag mean g y,
  kd = StateSpaceSolver \/ kd = ParallelStateSpaceSolver -> ~ no_constant k ->
  gaussian_process smolgp_ops k X diag mean (SolverClass kd) = inr g ->
  (exists e, gp_log_probability smolgp_ops g y = inl e) /\
  (exists e, gp_condition smolgp_ops g y None None = inl e).
Proof. exact constant_fails. Qed.
Print Assumptions C39_constant_fails.

Theorem C39_exp_parallel_fails : forall k X diag mean g y, ~ no_exp k ->
  gaussian_process smolgp_ops k X diag mean (SolverClass ParallelStateSpaceSolver) = inr g ->
  (exists e, gp_log_probability smolgp_ops g y = inl e) /\
  (exists e, gp_condition smolgp_ops g y None None = inl e).
Proof. exact exp_fails. Qed.
Print Assumptions C39_exp_parallel_fails.

Theorem C39_dimension1_parallel_fails : forall k X diag mean g y, md (denote k) = 1%N ->
  gaussian_process smolgp_ops k X diag mean (SolverClass ParallelStateSpaceSolver) = inr g ->
  (exists e, gp_log_probability smolgp_ops g y = inl e) /\
  (exists e, gp_condition smolgp_ops g y None None = inl e).
Proof. exact dim1_fails. Qed.
Print Assumptions C39_dimension1_parallel_fails.

Theorem C39_refuted : (exists g, gaussian_process smolgp_ops (Constant 1 "c") X_ex diag_ex None (SolverClass StateSpaceSolver)
       = inr g /\ exists e, gp_log_probability smolgp_ops g y_ex = inl e) /\
  (exists g, gaussian_process smolgp_ops (Exp 1 1 "e") X_ex diag_ex None (SolverClass ParallelStateSpaceSolver)
       = inr g /\ exists e, gp_log_probability smolgp_ops g y_ex = inl e).
Proof. exact kernels_fail. Qed.
Print Assumptions C39_refuted.
