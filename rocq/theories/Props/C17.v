(** C17: k1 + k2 and k1 * k2 are the sum and product of covariances. *)
From Coq Require Import Reals String.
From mathcomp Require Import all_ssreflect all_algebra.
From Verif.Prelude Require Import Rstruct Psd.
From Verif.Spec Require Import Expm Gp Lti WfKernel Cov CovOf.
From Verif.Model Require Import Array BaseKernels IntegratedKernels Kernel.
From Verif.Proofs Require Import Lti KernelProps KernelThms.
Import GRing.Theory.
Local Open Scope R_scope.

Theorem C17_sum_product : forall py k1 k2 X1 X2 v1 v2,
  kernel_evaluate py k1 X1 X2 = inr v1 -> kernel_evaluate py k2 X1 X2 = inr v2 ->
  kernel_evaluate py (kernel_add k1 k2) X1 X2 = inr (v1 + v2) /\
  kernel_evaluate py (kernel_mul k1 k2) X1 X2 = inr (v1 * v2).
Proof. exact evaluate_sum_product. Qed.
Print Assumptions C17_sum_product.

(** An expression raises exactly when one of its operands does. *)
Theorem C17_raises : forall py k1 k2 X1 X2 e,
  (kernel_evaluate py (kernel_add k1 k2) X1 X2 = inl e <->
   kernel_evaluate py k1 X1 X2 = inl e \/
   (exists v, kernel_evaluate py k1 X1 X2 = inr v) /\ kernel_evaluate py k2 X1 X2 = inl e) /\
  (kernel_evaluate py (kernel_mul k1 k2) X1 X2 = inl e <->
   kernel_evaluate py k1 X1 X2 = inl e \/
   (exists v, kernel_evaluate py k1 X1 X2 = inr v) /\ kernel_evaluate py k2 X1 X2 = inl e).
Proof. exact evaluate_raises. Qed.
Print Assumptions C17_raises.

(** Sums and products of stationary SDEs are stationary SDEs, with exact process
    noise where their operands' is exact. *)
Theorem C17_contract : forall m1 m2 dt, declared_lti m1 -> declared_lti m2 ->
  noise_exact_at m1 dt -> noise_exact_at m2 dt ->
  declared_lti (sum_model m1 m2) /\ noise_exact_at (sum_model m1 m2) dt /\
  declared_lti (product_model m1 m2) /\ noise_exact_at (product_model m1 m2) dt.
Proof. exact contract_closed. Qed.
Print Assumptions C17_contract.

Example C17_ex :
  (exists v, kernel_evaluate false k_example (CT 0) (CT 3) = inr v) /\
  declared_lti (matern52_model 2 1) /\ (forall dt, noise_exact_at (matern52_model 2 1) dt).
Proof. exact contract_example. Qed.
