(** C37: the mean function takes part in inference. *)
From Coq Require Import Reals String.
From mathcomp Require Import all_ssreflect all_algebra.
From Verif.Prelude Require Import Rstruct Psd.
From Verif.Spec Require Import Expm Gp Lti WfKernel Cov CovOf LogNormal Data.
From Verif.Model Require Import Array Jax Ssm Sequential Parallel BaseKernels IntegratedKernels Kernel
  Integrated Frontend SequentialOps Gp.
From Verif.Proofs Require Import KernelThms FitThms FitMore FitLin FrontThms FitExample FitRefute FrontDefined FrontProps.
Import GRing.Theory.
Local Open Scope R_scope.

(** It takes no part at all. *)

Theorem C37_mean_ignored : forall k X diag mean mean' sa g g',
  gaussian_process smolgp_ops k X diag mean sa = inr g ->
  gaussian_process smolgp_ops k X diag mean' sa = inr g' ->
  (forall y, gp_log_probability smolgp_ops g y = gp_log_probability smolgp_ops g' y) /\
  (forall y Xt comp, gp_condition smolgp_ops g y Xt comp = gp_condition smolgp_ops g' y Xt comp) /\
  (forall y Xt fs kn rv, gp_predict smolgp_ops g Xt y fs kn rv = gp_predict smolgp_ops g' Xt y fs kn rv).
Proof. exact mean_ignored. Qed.
Print Assumptions C37_mean_ignored.

Theorem C37_refuted : exists k X diag mean y kern g,
  wf_kernel k /\ const_obs k /\ valid_data X diag y /\ steps_kept k (times X) /\
  (forall X1 X2, kernel_evaluate false k X1 X2 = inr (kern X1 X2)) /\
  gaussian_process smolgp_ops k X diag (Some mean) NoSolver = inr g /\
  gp_log_probability smolgp_ops g y
    <> inr (Fin (log_normal (CT 0) kern (coord_list X) (variances diag (num_coords X))
         (mkseq (fun i => nth 0 y i - mean (nth (CT 0) (coord_list X) i)) (num_coords X)))).
Proof. exact mean_refuted. Qed.
Print Assumptions C37_refuted.
