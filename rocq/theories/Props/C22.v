(** C22: scaling a kernel by a number. *)
From Coq Require Import Reals String.
From mathcomp Require Import all_ssreflect all_algebra.
From Verif.Prelude Require Import Rstruct Psd.
From Verif.Spec Require Import Expm Gp Lti WfKernel Cov CovOf.
From Verif.Model Require Import Array BaseKernels IntegratedKernels Kernel.
From Verif.Proofs Require Import Lti KernelProps KernelThms.
Import GRing.Theory.
Local Open Scope R_scope.

(** a * kernel and kernel * a raise. *)
Theorem C22_scalar_mul_refuted : forall a k, kernel_scalar_mul a k = inl TypeError.
Proof. reflexivity. Qed.
Print Assumptions C22_scalar_mul_refuted.

(** Missing from the full property: the operators do not return a kernel at all, and
    Scale(kernel, scale, name) built by hand has the right covariance but the wrong
    process noise (C22_scale_noise_refuted). *)
Theorem C22_scale_evaluate_partial : forall py a k n X1 X2 v,
  kernel_evaluate py k X1 X2 = inr v ->
  kernel_evaluate py (Scale a k n) X1 X2 = inr (a * v).
Proof. exact kernel_evaluate_scale. Qed.
Print Assumptions C22_scale_evaluate_partial.

Theorem C22_scale_noise_refuted : exists a k X1 X2 A, wf_kernel (Scale a k "Scale") /\
  kernel_transition false (Scale a k "Scale") X1 X2 = inr A /\
  let m := denote (Scale a k "Scale") in
  mQ m X1 X2 <> (mPinf m - A *m mPinf m *m A^T)%R.
Proof. exact scale_noise_refuted. Qed.
Print Assumptions C22_scale_noise_refuted.

Example C22_ex : exists v, kernel_evaluate false (Scale 3 k_example "s") (CT 0) (CT 3) = inr v.
Proof. apply kernel_evaluate_defined; repeat split. Qed.
