(** C45: default solver selection. *)
From Coq Require Import Reals String.
From mathcomp Require Import all_ssreflect all_algebra.
From Verif.Prelude Require Import Rstruct Psd.
From Verif.Spec Require Import Expm Gp Lti WfKernel Cov CovOf LogNormal Data.
From Verif.Model Require Import Array Jax Ssm Sequential Parallel BaseKernels IntegratedKernels Kernel
  Integrated Frontend SequentialOps Gp.
From Verif.Proofs Require Import KernelThms FitThms FitMore FitLin FrontThms FitExample FitRefute FrontDefined FrontProps.
Import GRing.Theory.
Local Open Scope R_scope.

Theorem C45_default_solver : forall k X diag mean g,
  gaussian_process smolgp_ops k X diag mean NoSolver = inr g ->
  sv_kind (g_solver g) = (if has is_integrated_leaf (summands k) then IntegratedStateSpaceSolver
                          else StateSpaceSolver) /\
  (has is_integrated_leaf (summands k) -> is_tuple X).
Proof. exact default_kind. Qed.
Print Assumptions C45_default_solver.

Theorem C45_needs_tuple : forall k t diag mean, has is_integrated_leaf (summands k) ->
  (exists k', assign_unique_kernel_names k = inr k') ->
  gaussian_process smolgp_ops k (CArray t) diag mean NoSolver = inl AssertionError.
Proof. exact integrated_needs_tuple. Qed.
Print Assumptions C45_needs_tuple.

Example C45_ex : exists k t d i diag g1 g2,
  has is_integrated_leaf (summands k) /\
  gaussian_process smolgp_ops k (CTriple t d i) diag None NoSolver = inr g1 /\
  gaussian_process smolgp_ops k_kept X_ex diag_ex None NoSolver = inr g2.
Proof. exact kinds_example. Qed.

(** An integrated kernel that is a factor of a product is not noticed. *)

Theorem C45_product_not_noticed : exists k X diag g,
  has is_integrated_leaf (extract_leaf_kernels true k) /\ is_tuple X = false /\
  gaussian_process smolgp_ops k X diag None NoSolver = inr g /\
  sv_kind (g_solver g) = StateSpaceSolver.
Proof. exact product_not_detected. Qed.
Print Assumptions C45_product_not_noticed.
