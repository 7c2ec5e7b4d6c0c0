(** C41: zero-length exposures are point measurements. *)
From Coq Require Import Reals String.
From mathcomp Require Import all_ssreflect all_algebra.
From Verif.Prelude Require Import Rstruct Psd.
From Verif.Spec Require Import Expm Gp Lti WfKernel Cov CovOf LogNormal Data IntCov WfIntegrated Exposures.
From Verif.Model Require Import Array Jax Ssm Sequential Parallel BaseKernels IntegratedKernels Kernel
  Integrated Frontend SequentialOps Gp.
From Verif.Proofs Require Import KernelThms IntegratedThms FitInt IntOrder IntThms IntExample.
Import GRing.Theory.
Local Open Scope R_scope.

Theorem C41_points : forall k b t dl y inst diag mean mean' sa sa' g g', wf_integrated k ->
  base_kernel k = Some b -> valid_exposures (instruments k) (CTriple t dl inst) diag y ->
  exposure_steps_kept k (CTriple t dl inst) -> (forall i, (i < size t)%N -> nth 0 dl i = 0) ->
  (forall i j, (i <= j < size t)%N -> nth 0 t i <= nth 0 t j) ->
  default_integrated_solver sa -> default_solver sa' ->
  gaussian_process smolgp_ops k (CTriple t dl inst) diag mean sa = inr g ->
  gaussian_process smolgp_ops b (CArray t) diag mean' sa' = inr g' ->
  gp_log_probability smolgp_ops g y = gp_log_probability smolgp_ops g' y.
Proof. exact (fun k b t dl y inst diag mean mean' sa sa' g g' wf eb ve sk z srt hs hs' hg hg' => int_points wf eb ve sk z srt hs hs' hg hg'). Qed.
Print Assumptions C41_points.

(** Two of the points coincide. *)

Example C41_ex : valid_exposures (instruments k_int) X_points (Some (Scalar 1)) [:: 1; 2; 3] /\
  (forall i, (i < 3)%N -> nth 0 [:: 0; 0; 0] i = 0) /\
  (forall i j, (i <= j < 3)%N -> nth 0 [:: 0; 1; 1] i <= nth 0 [:: 0; 1; 1] j) /\
  X_points = CTriple [:: 0; 1; 1] [:: 0; 0; 0] [:: 0; 1; 0]%N.
Proof. exact X_points_ex. Qed.
