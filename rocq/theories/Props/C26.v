(** C26: integrated prediction of the latent process is exact. *)
From Coq Require Import Reals String.
From mathcomp Require Import all_ssreflect all_algebra.
From Verif.Prelude Require Import Rstruct Psd.
From Verif.Spec Require Import Expm Gp Lti WfKernel Cov CovOf LogNormal Data IntCov WfIntegrated Exposures Smoothable TestTimes.
From Verif.Model Require Import Array Jax Ssm Sequential Parallel BaseKernels IntegratedKernels Kernel
  Integrated Frontend SequentialOps Gp.
From Verif.Proofs Require Import KernelThms IntegratedThms FitInt IntOrder IntThms IntExample FitIntCond IntCondThms IntCondExample IntNarrow IntNarrowThms IntPredThms.
Import GRing.Theory.
Local Open Scope R_scope.

(** As C25, at any list ts of test times, in any order: before, during, between and after the
    exposures.  [test_kept] holds for all times when the kernel has no IntegratedSHO. *)

Theorem C26_predict : forall k b X diag mean sa y g lp c, wf_integrated k -> base_kernel k = Some b ->
  valid_exposures (instruments k) X diag y -> exposure_steps_kept k X ->
  noisy_integrated k -> smoothable X -> default_integrated_solver sa ->
  gaussian_process smolgp_ops k X diag mean sa = inr g ->
  gp_condition smolgp_ops g y None None = inr (lp, c) ->
  forall ts y', (forall u, List.In u ts -> test_kept k X u) ->
  let nd := variances diag (num_coords X) in
  exists d, gp_predict smolgp_ops c (Some (CArray ts)) y' false None true
  = inr (existT prediction d (PMeanVar
      (squeeze [seq gp_mean (CT 0) (integrated_cov b) (coord_list X) nd y (CT u) | u <- ts])
      (Some (squeeze [seq gp_var (CT 0) (integrated_cov b) (coord_list X) nd (CT u) | u <- ts])))).
Proof. exact (fun k b X diag mean sa y g lp c wf eb ve sk nk so hs hg hc ts y' tk => int_predict y' wf eb ve sk nk so hs hg hc tk). Qed.
Print Assumptions C26_predict.

Theorem C26_plain : forall k X u, wf_integrated k -> plain_integrated k -> test_kept k X u.
Proof. exact (fun k X u wf pl => plain_test_kept (X:=X) (u:=u) wf pl). Qed.
Print Assumptions C26_plain.

Example C26_ex : wf_integrated k_int /\ base_kernel k_int = Some b_int /\ plain_integrated k_int /\
  valid_exposures (instruments k_int) X_int diag_int y_int /\ names_ok k_int /\
  default_integrated_solver NoSolver /\ noisy_integrated k_int /\ smoothable X_int /\
  (forall u, List.In u [:: -1; 1; 20] -> test_kept k_int X_int u).
Proof.
exact (conj k_int_wf (conj k_int_base (conj k_int_plain (conj X_int_valid
  (conj k_int_names (conj (or_introl Logic.eq_refl) (conj k_int_noisy
  (conj X_int_smoothable (fun u _ => plain_test_kept k_int_wf k_int_plain))))))))).
Qed.
