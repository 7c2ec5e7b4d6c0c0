(** C02: condition returns the exact posterior at the data. *)
From Coq Require Import Reals String.
From mathcomp Require Import all_ssreflect all_algebra.
From Verif.Prelude Require Import Rstruct Psd.
From Verif.Spec Require Import Expm Gp Lti WfKernel Cov CovOf LogNormal Data.
From Verif.Model Require Import Array Jax Ssm Sequential Parallel BaseKernels IntegratedKernels Kernel
  Integrated Frontend SequentialOps Gp.
From Verif.Proofs Require Import KernelThms FitThms FitMore FitLin FrontThms FitExample FitRefute FrontDefined FrontProps.
Import GRing.Theory.
Local Open Scope R_scope.

Theorem C02_condition : forall k X diag mean sa y kern g lp c,
  wf_kernel k -> const_obs k -> valid_data X diag y -> steps_kept k (times X) ->
  (forall X1 X2, kernel_evaluate false k X1 X2 = inr (kern X1 X2)) -> default_solver sa ->
  gaussian_process smolgp_ops k X diag mean sa = inr g ->
  gp_condition smolgp_ops g y None None = inr (lp, c) ->
  let xs := coord_list X in let d := variances diag (num_coords X) in
  lp = Fin (log_normal (CT 0) kern xs d y) /\ g_X c = X /\
  g_mean c = [seq gp_mean (CT 0) kern xs d y x | x <- xs] /\
  g_var c = Some (Vector [seq gp_var (CT 0) kern xs d x | x <- xs]).
Proof. exact (fun k X diag mean sa y kern g lp c wf co vd kept hk hs hg hc =>
  match thm_condition wf co vd kept hk hs hg hc with And4 a b e f => conj a (conj b (conj e f)) end). Qed.
Print Assumptions C02_condition.

Theorem C02_defined : forall k X diag mean sa y kern g, wf_kernel k -> valid_data X diag y ->
  (forall X1 X2, kernel_evaluate false k X1 X2 = inr (kern X1 X2)) -> default_solver sa ->
  names_ok k -> gaussian_process smolgp_ops k X diag mean sa = inr g ->
  num_coords X <> 1%N ->
  exists lp c, gp_condition smolgp_ops g y None None = inr (lp, c).
Proof. exact (fun k X diag mean sa y kern g wf vd hk hs nok hg n1 => thm_condition_defined wf vd hk hs nok hg n1). Qed.
Print Assumptions C02_defined.

(** The hypotheses hold together for a sum of an SHO and a product, with four data of
    which two are at the same time. *)
Example C02_ex : wf_kernel k_kept /\ const_obs k_kept /\ names_ok k_kept /\ valid_data X_ex diag_ex y_ex /\
  steps_kept k_kept (times X_ex) /\ default_solver NoSolver /\
  exists kern g lp c, (forall X1 X2, kernel_evaluate false k_kept X1 X2 = inr (kern X1 X2)) /\
    gaussian_process smolgp_ops k_kept X_ex diag_ex None NoSolver = inr g /\
    gp_condition smolgp_ops g y_ex None None = inr (lp, c).
Proof.
exact (conj k_kept_wf (conj k_kept_const (conj k_kept_names (conj X_ex_valid
  (conj X_ex_kept (conj (or_introl Logic.eq_refl) fit_example)))))).
Qed.

(** With a single datum condition raises (the squeezed mean is not an array). *)

Theorem C02_single_datum_refuted : exists k X diag y kern g,
  wf_kernel k /\ const_obs k /\ names_ok k /\ valid_data X diag y /\ steps_kept k (times X) /\
  (forall X1 X2, kernel_evaluate false k X1 X2 = inr (kern X1 X2)) /\
  gaussian_process smolgp_ops k X diag None NoSolver = inr g /\
  exists e, gp_condition smolgp_ops g y None None = inl e.
Proof. exact single_refuted. Qed.
Print Assumptions C02_single_datum_refuted.
