(** C44: instantaneous results do not depend on the order of the data. *)
From Coq Require Import Reals String.
From mathcomp Require Import all_ssreflect all_algebra.
From Verif.Prelude Require Import Rstruct Psd.
From Verif.Spec Require Import Expm Gp Lti WfKernel Cov CovOf LogNormal Data.
From Verif.Model Require Import Array Jax Ssm Sequential Parallel BaseKernels IntegratedKernels Kernel
  Integrated Frontend SequentialOps Gp.
From Verif.Proofs Require Import KernelThms FitThms FitMore FitLin FrontThms FitExample FitRefute FrontDefined FrontProps.
Import GRing.Theory.
Local Open Scope R_scope.

(** Full statement: [forall idx, perm_eq idx (iota 0 N) -> ...] without the assumption that
    the permuted data are sorted too; it is false, see [C44_refuted]. *)

Theorem C44_order_partial : forall k t d y idx kern mean sa g g',
  perm_eq idx (iota 0 (size t)) -> wf_kernel k -> const_obs k ->
  valid_data (CArray t) (Some (Vector d)) y ->
  valid_data (CArray [seq nth 0 t i | i <- idx]) (Some (Vector [seq nth 0 d i | i <- idx]))
    [seq nth 0 y i | i <- idx] ->
  size d = size t -> steps_kept k t -> steps_kept k [seq nth 0 t i | i <- idx] ->
  (forall X1 X2, kernel_evaluate false k X1 X2 = inr (kern X1 X2)) -> default_solver sa ->
  gaussian_process smolgp_ops k (CArray t) (Some (Vector d)) mean sa = inr g ->
  gaussian_process smolgp_ops k (CArray [seq nth 0 t i | i <- idx])
    (Some (Vector [seq nth 0 d i | i <- idx])) mean sa = inr g' ->
  gp_log_probability smolgp_ops g' [seq nth 0 y i | i <- idx] = gp_log_probability smolgp_ops g y.
Proof. exact order_log_probability. Qed.
Print Assumptions C44_order_partial.

(** Two data at one time exchanged. *)
Example C44_ex : perm_eq [:: 0; 2; 1; 3]%N (iota 0 4) /\
  valid_data X_ex (Some (Vector [:: 1; 2; 3; 4])) y_ex /\
  valid_data (CArray [seq nth 0 (times X_ex) i | i <- [:: 0; 2; 1; 3]%N])
    (Some (Vector [seq nth 0 [:: 1; 2; 3; 4] i | i <- [:: 0; 2; 1; 3]%N]))
    [seq nth 0 y_ex i | i <- [:: 0; 2; 1; 3]%N].
Proof. exact order_example. Qed.

Theorem C44_refuted : exists k t d y idx g g',
  wf_kernel k /\ const_obs k /\ perm_eq idx (iota 0 (size t)) /\
  valid_data (CArray t) (Some (Vector d)) y /\ steps_kept k t /\
  gaussian_process smolgp_ops k (CArray t) (Some (Vector d)) None NoSolver = inr g /\
  gaussian_process smolgp_ops k (CArray [seq nth 0 t i | i <- idx])
    (Some (Vector [seq nth 0 d i | i <- idx])) None NoSolver = inr g' /\
  gp_log_probability smolgp_ops g' [seq nth 0 y i | i <- idx] <> gp_log_probability smolgp_ops g y.
Proof. exact order_refuted. Qed.
Print Assumptions C44_refuted.
