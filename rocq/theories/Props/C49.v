(** C49: inference depends on the kernel through its covariance function only. *)
From Coq Require Import Reals String.
From mathcomp Require Import all_ssreflect all_algebra.
From Verif.Prelude Require Import Rstruct.
From Verif.Spec Require Import WfKernel CovOf LogNormal Data Transform.
From Verif.Model Require Import BaseKernels Kernel Integrated Frontend SequentialOps Gp.
From Verif.Proofs Require Import TransferThms TransferUnits TransferExample.
Local Open Scope R_scope.

Theorem C49_log_probability : forall k k' X diag y kern kern' g g',
  gp_of k X diag y kern g -> gp_of k' X diag y kern' g' ->
  (forall X1 X2, kern' X1 X2 = kern X1 X2) ->
  gp_log_probability smolgp_ops g' y = gp_log_probability smolgp_ops g y.
Proof. exact (fun k k' X diag y kern kern' g g' h h' kk => same_log_probability h h' kk). Qed.
Print Assumptions C49_log_probability.

Theorem C49_condition_predict : forall k k' X diag y kern kern' g g',
  gp_of k X diag y kern g -> gp_of k' X diag y kern' g' ->
  (forall X1 X2, kern' X1 X2 = kern X1 X2) ->
  forall lp c lp' c', gp_condition smolgp_ops g y None None = inr (lp, c) ->
  gp_condition smolgp_ops g' y None None = inr (lp', c') ->
  [/\ lp' = lp, g_mean c' = g_mean c, g_var c' = g_var c &
   forall Xt, tests_kept k X Xt -> tests_kept k' X Xt ->
     exists mu va, predicts c Xt mu va /\ predicts c' Xt mu va].
Proof. exact (fun k k' X diag y kern kern' g g' h h' kk => same_condition h h' kk). Qed.
Print Assumptions C49_condition_predict.

(** + and * of kernels obey the laws of arithmetic, exceptions included. *)

Theorem C49_algebra : forall k1 k2 k3 X1 X2,
  let ev k := kernel_evaluate false k X1 X2 in
  ev (kernel_add k1 k2) = ev (kernel_add k2 k1) /\
  ev (kernel_mul k1 k2) = ev (kernel_mul k2 k1) /\
  ev (kernel_add (kernel_add k1 k2) k3) = ev (kernel_add k1 (kernel_add k2 k3)) /\
  ev (kernel_mul (kernel_mul k1 k2) k3) = ev (kernel_mul k1 (kernel_mul k2 k3)) /\
  ev (kernel_mul k1 (kernel_add k2 k3)) = ev (kernel_add (kernel_mul k1 k2) (kernel_mul k1 k3)).
Proof. exact kernel_algebra. Qed.
Print Assumptions C49_algebra.

(** [gp_of] can be met for every kernel without SHO, Scale, Custom and Constant, and conditioning
    succeeds. *)

Theorem C49_defined : forall k, wf_kernel k -> const_obs k -> plain_noise k -> no_constant k -> names_ok k ->
  exists kern, (forall X1 X2, kernel_evaluate false k X1 X2 = inr (kern X1 X2)) /\
    forall X diag y, valid_data X diag y -> exists g, gp_of k X diag y kern g.
Proof. exact gp_of_defined. Qed.
Print Assumptions C49_defined.

Theorem C49_condition_defined : forall k X diag y kern g, gp_of k X diag y kern g -> names_ok k ->
  num_coords X <> 1%N -> exists lp c, gp_condition smolgp_ops g y None None = inr (lp, c).
Proof. exact of_condition_defined. Qed.
Print Assumptions C49_condition_defined.

(** Matern32 + Exp * Cosine against Cosine * Exp + Matern(nu = 3/2): states of different layout. *)
Example C49_ex : exists kern kern' g g',
  gp_of k_tr (CArray t_tr) (Some (Vector d_tr)) y_tr kern g /\
  gp_of (Sum (Product (Cosine 2 1 "c") (Exp 1 3 "b")) (Matern 1 2 1)) (CArray t_tr)
    (Some (Vector d_tr)) y_tr kern' g' /\
  forall X1 X2, kern' X1 X2 = kern X1 X2.
Proof. exact swap_example. Qed.
