(** C42: instrument labels are only labels. *)
From Coq Require Import Reals String.
From mathcomp Require Import all_ssreflect all_algebra.
From Verif.Prelude Require Import Rstruct Psd.
From Verif.Spec Require Import Expm Gp Lti WfKernel Cov CovOf LogNormal Data IntCov WfIntegrated Exposures.
From Verif.Model Require Import Array Jax Ssm Sequential Parallel BaseKernels IntegratedKernels Kernel
  Integrated Frontend SequentialOps Gp.
From Verif.Proofs Require Import KernelThms IntegratedThms FitInt IntOrder IntThms IntExample.
Import GRing.Theory.
Local Open Scope R_scope.

Theorem C42_relabel : forall k t dl y inst diag p mean sa g g',
  (forall i, (i < instruments k)%N -> (p i < instruments k)%N) ->
  (forall i j, (i < instruments k)%N -> (j < instruments k)%N -> p i = p j -> i = j) ->
  wf_integrated k -> valid_exposures (instruments k) (CTriple t dl inst) diag y ->
  exposure_steps_kept k (CTriple t dl inst) -> default_integrated_solver sa ->
  gaussian_process smolgp_ops k (CTriple t dl inst) diag mean sa = inr g ->
  gaussian_process smolgp_ops k (CTriple t dl (map p inst)) diag mean sa = inr g' ->
  gp_log_probability smolgp_ops g' y = gp_log_probability smolgp_ops g y.
Proof. exact (fun k t dl y inst diag p mean sa g g' pn pj wf ve sk hs hg hg' => int_relabel pn pj wf ve sk hs hg hg'). Qed.
Print Assumptions C42_relabel.

Example C42_ex : valid_exposures (instruments k_int) X_int diag_int y_int /\
  (forall i, (i < instruments k_int)%N -> (1 - i < instruments k_int)%N) /\
  (forall i j, (i < instruments k_int)%N -> (j < instruments k_int)%N -> (1 - i = 1 - j)%N -> i = j) /\
  map (fun i => (1 - i)%N) [:: 0; 1; 0; 0]%N = [:: 1; 0; 1; 1]%N.
Proof. exact relabel_ex. Qed.
