(** C03: predict is the exact posterior at arbitrary test times. *)
From Coq Require Import Reals String.
From mathcomp Require Import all_ssreflect all_algebra.
From Verif.Prelude Require Import Rstruct Psd.
From Verif.Spec Require Import Expm Gp Lti WfKernel Cov CovOf LogNormal Data.
From Verif.Model Require Import Array Jax Ssm Sequential Parallel BaseKernels IntegratedKernels Kernel
  Integrated Frontend SequentialOps Gp.
From Verif.Proofs Require Import KernelThms FitThms FitMore FitLin FrontThms FitExample FitRefute FrontDefined FrontProps.
Import GRing.Theory.
Local Open Scope R_scope.

Theorem C03_predict : forall k X diag mean sa y kern g lp c,
  wf_kernel k -> const_obs k -> valid_data X diag y -> steps_kept k (times X) ->
  (forall X1 X2, kernel_evaluate false k X1 X2 = inr (kern X1 X2)) -> default_solver sa ->
  gaussian_process smolgp_ops k X diag mean sa = inr g ->
  gp_condition smolgp_ops g y None None = inr (lp, c) ->
  forall Xt y', (forall x, List.In x (coord_list Xt) -> predict_kept k (times X) (coord_to_sortable x)) ->
  let xs := coord_list X in let d := variances diag (num_coords X) in
  exists n, gp_predict smolgp_ops c (Some Xt) y' false None true = inr (existT prediction n (PMeanVar
      (squeeze [seq gp_mean (CT 0) kern xs d y x | x <- coord_list Xt])
      (Some (squeeze [seq gp_var (CT 0) kern xs d x | x <- coord_list Xt])))).
Proof. exact (fun k X diag mean sa y kern g lp c wf co vd kept hk hs hg hc Xt y' hp =>
  thm_predict wf co vd kept hk hs hg hc y' hp). Qed.
Print Assumptions C03_predict.

(** The hypotheses hold together for a sum of an SHO and a product, with four data of
    which two are at the same time. *)
Example C03_ex : wf_kernel k_kept /\ const_obs k_kept /\ names_ok k_kept /\ valid_data X_ex diag_ex y_ex /\
  steps_kept k_kept (times X_ex) /\ default_solver NoSolver /\
  exists kern g lp c, (forall X1 X2, kernel_evaluate false k_kept X1 X2 = inr (kern X1 X2)) /\
    gaussian_process smolgp_ops k_kept X_ex diag_ex None NoSolver = inr g /\
    gp_condition smolgp_ops g y_ex None None = inr (lp, c).
Proof.
exact (conj k_kept_wf (conj k_kept_const (conj k_kept_names (conj X_ex_valid
  (conj X_ex_kept (conj (or_introl Logic.eq_refl) fit_example)))))).
Qed.

(** Test times before the first datum, on a datum, on a pair of data, after the last. *)
Example C03_ex_test : forall x, List.In x (coord_list Xt_ex) ->
  predict_kept k_kept (times X_ex) (coord_to_sortable x).
Proof. exact Xt_ex_kept. Qed.

(** For kernels without SHO, Scale and Custom the condition on the test times is void. *)

Theorem C03_kept_always : forall k dt, plain_noise k -> noise_kept dt k.
Proof. exact plain_kept. Qed.
Print Assumptions C03_kept_always.
