(** C43: exposures that start simultaneously. *)
From Coq Require Import Reals String.
From mathcomp Require Import all_ssreflect all_algebra.
From Verif.Prelude Require Import Rstruct Psd.
From Verif.Spec Require Import Expm Gp Lti WfKernel Cov CovOf LogNormal Data IntCov WfIntegrated Exposures Smoothable.
From Verif.Model Require Import Array Jax Ssm Sequential Parallel BaseKernels IntegratedKernels Kernel
  Integrated Frontend SequentialOps Gp.
From Verif.Proofs Require Import KernelThms IntegratedThms FitInt IntOrder IntThms IntExample FitIntCond IntCondThms IntCondExample IntNarrow IntNarrowThms.
Import GRing.Theory.
Local Open Scope R_scope.

(** log_probability needs no assumption about ties. *)

Theorem C43_log_probability : forall k b X diag mean sa y g i j, wf_integrated k -> base_kernel k = Some b ->
  valid_exposures (instruments k) X diag y -> exposure_steps_kept k X ->
  (i < num_coords X)%N -> (j < num_coords X)%N -> i <> j ->
  begin (exposure X i) = begin (exposure X j) ->
  default_integrated_solver sa -> gaussian_process smolgp_ops k X diag mean sa = inr g ->
  gp_log_probability smolgp_ops g y
  = inr (Fin (log_normal (CT 0) (integrated_cov b) (coord_list X) (variances diag (num_coords X)) y)).
Proof. exact (fun k b X diag mean sa y g i j wf eb ve sk _ _ _ _ hs hg => int_log_probability wf eb hs ve sk hg). Qed.
Print Assumptions C43_log_probability.

(** But conditioning always meets a singular predicted covariance: the smoother
    (integrated/rts.py:53-94) solves with all of them except the first. *)

Theorem C43_singular : forall k X diag mean sa y g r i j, wf_integrated k ->
  valid_exposures (instruments k) X diag y -> exposure_steps_kept k X -> default_integrated_solver sa ->
  gaussian_process smolgp_ops k X diag mean sa = inr g ->
  so_condition (smolgp_ops (sv_kind (g_solver g))) (g_solver g) y true = inr r -> 
  (i < num_coords X)%N -> (j < num_coords X)%N -> i <> j ->
  begin (exposure X i) = begin (exposure X j) -> exists q, (q.+1 < (num_coords X).*2)%N /\ nth 0%R (r_Pp r) q.+1 \notin unitmx.
Proof. exact (fun k X diag mean sa y g r i j wf ve sk hs hg hr => tied_singular wf ve sk hs hg hr (i:=i) (j:=j)). Qed.
Print Assumptions C43_singular.

Theorem C43_condition_refuted : exists k X diag y g r q,
  [/\ wf_integrated k, noisy_integrated k, plain_integrated k &
      valid_exposures (instruments k) X diag y] /\
  gaussian_process smolgp_ops k X diag None NoSolver = inr g /\
  so_condition (smolgp_ops (sv_kind (g_solver g))) (g_solver g) y true = inr r /\
  (q.+1 < (num_coords X).*2)%N /\ nth 0%R (r_Pp r) q.+1 \notin unitmx.
Proof. exact tied_refuted. Qed.
Print Assumptions C43_condition_refuted.

Example C43_ex : wf_integrated k_int /\ plain_integrated k_int /\
  valid_exposures (instruments k_int) X_tied (Some (Scalar 1)) [:: 1; 2; 3] /\
  begin (exposure X_tied 0) = begin (exposure X_tied 1).
Proof. exact (conj k_int_wf (conj k_int_plain (conj X_tied_valid Logic.eq_refl))). Qed.
