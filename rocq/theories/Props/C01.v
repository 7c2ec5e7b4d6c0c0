(** C01: log_probability is the exact GP marginal likelihood. *)
From Coq Require Import Reals String.
From mathcomp Require Import all_ssreflect all_algebra.
From Verif.Prelude Require Import Rstruct Psd.
From Verif.Spec Require Import Expm Gp Lti WfKernel Cov CovOf LogNormal Data.
From Verif.Model Require Import Array Jax Ssm Sequential Parallel BaseKernels IntegratedKernels Kernel
  Integrated Frontend SequentialOps Gp.
From Verif.Proofs Require Import KernelThms FitThms FitMore FitLin FrontThms FitExample FitRefute FrontDefined FrontProps.
Import GRing.Theory.
Local Open Scope R_scope.

Theorem C01_log_probability : forall k X diag mean sa y kern g,
  wf_kernel k -> const_obs k -> valid_data X diag y -> steps_kept k (times X) ->
  (forall X1 X2, kernel_evaluate false k X1 X2 = inr (kern X1 X2)) -> default_solver sa ->
  gaussian_process smolgp_ops k X diag mean sa = inr g ->
  gp_log_probability smolgp_ops g y
  = inr (Fin (log_normal (CT 0) kern (coord_list X) (variances diag (num_coords X)) y)).
Proof. exact (fun k X diag mean sa y kern g wf co vd kept hk hs hg => thm_log_probability wf co vd kept hk hs hg). Qed.
Print Assumptions C01_log_probability.

(** Construction succeeds (see C33 for the names), and evaluate is defined without Constant. *)

Theorem C01_defined : forall k X diag mean sa y, wf_kernel k -> valid_data X diag y -> default_solver sa ->
  names_ok k -> exists g, gaussian_process smolgp_ops k X diag mean sa = inr g.
Proof. exact (fun k X diag mean sa y wf vd hs => thm_defined mean wf vd hs). Qed.
Print Assumptions C01_defined.

Theorem C01_evaluate_defined : forall k, no_constant k ->
  exists kern, forall X1 X2, kernel_evaluate false k X1 X2 = inr (kern X1 X2).
Proof. exact kernel_evaluate_fun. Qed.
Print Assumptions C01_evaluate_defined.

(** The hypotheses hold together for a sum of an SHO and a product, with four data of
    which two are at the same time. *)
Example C01_ex : wf_kernel k_kept /\ const_obs k_kept /\ names_ok k_kept /\ valid_data X_ex diag_ex y_ex /\
  steps_kept k_kept (times X_ex) /\ default_solver NoSolver /\
  exists kern g lp c, (forall X1 X2, kernel_evaluate false k_kept X1 X2 = inr (kern X1 X2)) /\
    gaussian_process smolgp_ops k_kept X_ex diag_ex None NoSolver = inr g /\
    gp_condition smolgp_ops g y_ex None None = inr (lp, c).
Proof.
exact (conj k_kept_wf (conj k_kept_const (conj k_kept_names (conj X_ex_valid
  (conj X_ex_kept (conj (or_introl Logic.eq_refl) fit_example)))))).
Qed.

(** Without [steps_kept]: an SHO of small amplitude, whose process noise is replaced by 0. *)

Theorem C01_flush_refuted : exists k X diag y kern g,
  wf_kernel k /\ const_obs k /\ sharp_kernel k /\ valid_data X diag y /\
  (forall X1 X2, kernel_evaluate false k X1 X2 = inr (kern X1 X2)) /\
  gaussian_process smolgp_ops k X diag None NoSolver = inr g /\
  gp_log_probability smolgp_ops g y
    <> inr (Fin (log_normal (CT 0) kern (coord_list X) (variances diag (num_coords X)) y)).
Proof. exact flush_log_refuted. Qed.
Print Assumptions C01_flush_refuted.
