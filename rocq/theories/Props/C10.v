(** C10: results are invariant under a shift of the time origin. *)
From Coq Require Import Reals String.
From mathcomp Require Import all_ssreflect all_algebra.
From Verif.Prelude Require Import Rstruct Psd.
From Verif.Spec Require Import Expm Gp Lti WfKernel Cov CovOf LogNormal Data.
From Verif.Model Require Import Array Jax Ssm Sequential Parallel BaseKernels IntegratedKernels Kernel
  Integrated Frontend SequentialOps Gp.
From Verif.Proofs Require Import KernelThms FitThms FitMore FitLin FrontThms FitExample FitRefute FrontDefined FrontProps.
Import GRing.Theory.
Local Open Scope R_scope.

Theorem C10_log_probability : forall k X diag mean sa dt y, const_obs k -> default_solver sa ->
  size (variances diag (num_coords X)) = num_coords X -> (0 < num_coords X)%N ->
  forall g g', gaussian_process smolgp_ops k X diag mean sa = inr g ->
  gaussian_process smolgp_ops k (shift_coords dt X) diag mean sa = inr g' ->
  gp_log_probability smolgp_ops g' y = gp_log_probability smolgp_ops g y.
Proof. exact (fun k X diag mean sa dt y co hs hd N0 g g' hg hg' => thm_shift_log_probability y co hs hd hg hg'). Qed.
Print Assumptions C10_log_probability.

Theorem C10_condition_predict : forall k X diag mean sa dt y, const_obs k -> default_solver sa ->
  size (variances diag (num_coords X)) = num_coords X -> (0 < num_coords X)%N ->
  forall g g', gaussian_process smolgp_ops k X diag mean sa = inr g ->
  gaussian_process smolgp_ops k (shift_coords dt X) diag mean sa = inr g' ->
  forall comp lp lp' c c', gp_condition smolgp_ops g y None comp = inr (lp, c) ->
  gp_condition smolgp_ops g' y None comp = inr (lp', c') ->
  (lp' = lp /\ g_mean c' = g_mean c /\ g_var c' = g_var c) /\
  forall Xt y' cp rv, exists d p,
    gp_predict smolgp_ops c (Some Xt) y' false cp rv = inr (existT prediction d p) /\
    gp_predict smolgp_ops c' (Some (shift_coords dt Xt)) y' false cp rv = inr (existT prediction d p).
Proof. exact (fun k X diag mean sa dt y co hs hd N0 g g' hg hg' comp lp lp' c c' hc hc' =>
  conj (thm_shift_condition co hs hd hg hg' hc hc') (thm_shift_predict co hs hd N0 hg hg' hc hc')). Qed.
Print Assumptions C10_condition_predict.

(** The shifted data set is accepted whenever the original is. *)

Theorem C10_defined : forall k X diag mean sa dt g, const_obs k -> default_solver sa ->
  size (variances diag (num_coords X)) = num_coords X ->
  gaussian_process smolgp_ops k X diag mean sa = inr g ->
  exists g', gaussian_process smolgp_ops k (shift_coords dt X) diag mean sa = inr g'.
Proof. exact shift_defined. Qed.
Print Assumptions C10_defined.

(** The hypotheses hold together for a sum of an SHO and a product, with four data of
    which two are at the same time. *)
Example C10_ex : wf_kernel k_kept /\ const_obs k_kept /\ names_ok k_kept /\ valid_data X_ex diag_ex y_ex /\
  steps_kept k_kept (times X_ex) /\ default_solver NoSolver /\
  exists kern g lp c, (forall X1 X2, kernel_evaluate false k_kept X1 X2 = inr (kern X1 X2)) /\
    gaussian_process smolgp_ops k_kept X_ex diag_ex None NoSolver = inr g /\
    gp_condition smolgp_ops g y_ex None None = inr (lp, c).
Proof.
exact (conj k_kept_wf (conj k_kept_const (conj k_kept_names (conj X_ex_valid
  (conj X_ex_kept (conj (or_introl Logic.eq_refl) fit_example)))))).
Qed.
