(** C16: every Gram matrix is symmetric positive semidefinite. *)
From Coq Require Import Reals String.
From mathcomp Require Import all_ssreflect all_algebra.
From Verif.Prelude Require Import Rstruct Psd.
From Verif.Spec Require Import Expm Gp Lti WfKernel Cov CovOf.
From Verif.Model Require Import Array BaseKernels IntegratedKernels Kernel.
From Verif.Proofs Require Import Lti KernelProps KernelThms.
Import GRing.Theory.
Local Open Scope R_scope.

Theorem C16_gram_psd : forall k (xs : seq coord) (kern : coord -> coord -> R),
  wf_kernel k -> const_obs k ->
  (forall X1 X2, kernel_evaluate false k X1 X2 = inr (kern X1 X2)) ->
  psdmx (gram (CT 0) kern xs).
Proof. exact kernel_gram_psd. Qed.
Print Assumptions C16_gram_psd.

Example C16_ex : wf_kernel k_example /\ const_obs k_example /\
  exists kern, forall X1 X2, kernel_evaluate false k_example X1 X2 = inr (kern X1 X2).
Proof.
split; [exact k_example_wf | split; [repeat split | apply kernel_evaluate_fun; repeat split]].
Qed.
