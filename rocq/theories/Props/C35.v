(** C35: condition reports the same log probability as log_probability. *)
From Coq Require Import Reals String.
From mathcomp Require Import all_ssreflect all_algebra.
From Verif.Prelude Require Import Rstruct Psd.
From Verif.Spec Require Import Expm Gp Lti WfKernel Cov CovOf LogNormal Data.
From Verif.Model Require Import Array Jax Ssm Sequential Parallel BaseKernels IntegratedKernels Kernel
  Integrated Frontend SequentialOps Gp.
From Verif.Proofs Require Import KernelThms FitThms FitMore FitLin FrontThms FitExample FitRefute FrontDefined FrontProps.
Import GRing.Theory.
Local Open Scope R_scope.

Theorem C35_condition_log_probability : forall g y Xt comp lp c,
  gp_condition smolgp_ops g y Xt comp = inr (lp, c) -> gp_log_probability smolgp_ops g y = inr lp.
Proof. exact condition_log_probability. Qed.
Print Assumptions C35_condition_log_probability.

(** A conditioned GP exists. *)
Example C35_ex : exists g lp c,
  gaussian_process smolgp_ops k_kept X_ex diag_ex None NoSolver = inr g /\
  g_states g = None /\ gp_condition smolgp_ops g y_ex None None = inr (lp, c) /\
  exists st, g_states c = Some st.
Proof. exact cond_example. Qed.
