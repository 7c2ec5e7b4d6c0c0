(** C11: transition matrices compose. *)
From Coq Require Import Reals String.
From mathcomp Require Import all_ssreflect all_algebra.
From Verif.Prelude Require Import Rstruct Psd.
From Verif.Spec Require Import Expm Gp Lti WfKernel Cov CovOf.
From Verif.Model Require Import Array BaseKernels IntegratedKernels Kernel.
From Verif.Proofs Require Import Lti KernelProps KernelThms.
Import GRing.Theory.
Local Open Scope R_scope.

Theorem C11_transition_composes : forall py k X1 X2 X3 A12 A23, wf_kernel k ->
  kernel_transition py k X1 X2 = inr A12 -> kernel_transition py k X2 X3 = inr A23 ->
  kernel_transition py k X1 X1 = inr 1%:M%R /\
  kernel_transition py k X1 X3 = inr (A23 *m A12)%R.
Proof. exact transition_composes. Qed.
Print Assumptions C11_transition_composes.

(** Every expression without Constant has a transition matrix on array coordinates. *)
Theorem C11_transition_defined : forall k X1 X2, no_constant k ->
  exists A, kernel_transition false k X1 X2 = inr A.
Proof. exact transition_defined. Qed.
Print Assumptions C11_transition_defined.

Example C11_ex : wf_kernel k_example /\ no_constant k_example.
Proof. split; [exact k_example_wf | repeat split]. Qed.

(** Constant has no transition matrix: the call raises. *)
Theorem C11_constant_refuted : exists k X1 X2,
  wf_kernel k /\ kernel_transition false k X1 X2 = inl AttributeError.
Proof. exact constant_raises. Qed.
Print Assumptions C11_constant_refuted.
