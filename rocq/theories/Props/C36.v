(** C36: condition(y, X_test) describes the posterior at X_test. *)
From Coq Require Import Reals String.
From mathcomp Require Import all_ssreflect all_algebra.
From Verif.Prelude Require Import Rstruct Psd.
From Verif.Spec Require Import Expm Gp Lti WfKernel Cov CovOf LogNormal Data.
From Verif.Model Require Import Array Jax Ssm Sequential Parallel BaseKernels IntegratedKernels Kernel
  Integrated Frontend SequentialOps Gp.
From Verif.Proofs Require Import KernelThms FitThms FitMore FitLin FrontThms FitExample FitRefute FrontDefined FrontProps.
Import GRing.Theory.
Local Open Scope R_scope.

(** It never does: for every solver, GP and test points the call raises. *)

Theorem C36_condition_test_raises : forall ops g y Xt comp,
  exists e, gp_condition ops g y (Some Xt) comp = inl e.
Proof. exact condition_test_fails. Qed.
Print Assumptions C36_condition_test_raises.

Theorem C36_refuted : exists k X diag y Xt g lp c,
  wf_kernel k /\ const_obs k /\ names_ok k /\ valid_data X diag y /\ steps_kept k (times X) /\
  gaussian_process smolgp_ops k X diag None NoSolver = inr g /\
  gp_condition smolgp_ops g y None None = inr (lp, c) /\
  exists e, gp_condition smolgp_ops g y (Some Xt) None = inl e.
Proof. exact cond_test_refuted. Qed.
Print Assumptions C36_refuted.
