(** C13: process noise = Pinf - A Pinf A^T. *)
From Coq Require Import Reals String.
From mathcomp Require Import all_ssreflect all_algebra.
From Verif.Prelude Require Import Rstruct Psd.
From Verif.Spec Require Import Expm Gp Lti WfKernel Cov CovOf.
From Verif.Model Require Import Array BaseKernels IntegratedKernels Kernel.
From Verif.Proofs Require Import Lti KernelProps KernelThms.
Import GRing.Theory.
Local Open Scope R_scope.

Theorem C13_process_noise : forall py k X1 X2 A, wf_kernel k -> noise_kept (lag X1 X2) k ->
  kernel_transition py k X1 X2 = inr A ->
  mQ (denote k) X1 X2 = (mPinf (denote k) - A *m mPinf (denote k) *m A^T)%R.
Proof. exact noise_formula. Qed.
Print Assumptions C13_process_noise.

Example C13_ex : wf_kernel k_kept /\ noise_kept (lag (CT 0) (CT (flush_dt 1))) k_kept
  /\ exists A, kernel_transition false k_kept (CT 0) (CT (flush_dt 1)) = inr A.
Proof.
split; [exact k_kept_wf | split; [rewrite lag0; exact k_kept_noise | apply transition_defined; repeat split]].
Qed.

(** Entries below 1e-14 of the underdamped SHO noise are replaced by 0. *)
Theorem C13_flush_refuted : exists k X1 X2 A, wf_kernel k /\ sharp_kernel k /\
  kernel_transition false k X1 X2 = inr A /\
  mQ (denote k) X1 X2 <> (mPinf (denote k) - A *m mPinf (denote k) *m A^T)%R.
Proof. exact flush_refuted. Qed.
Print Assumptions C13_flush_refuted.

(** Scale does not scale the process noise. *)
Theorem C13_scale_refuted : exists a k X1 X2 A, wf_kernel (Scale a k "Scale") /\
  kernel_transition false (Scale a k "Scale") X1 X2 = inr A /\
  let m := denote (Scale a k "Scale") in
  mQ m X1 X2 <> (mPinf m - A *m mPinf m *m A^T)%R.
Proof. exact scale_noise_refuted. Qed.
Print Assumptions C13_scale_refuted.
