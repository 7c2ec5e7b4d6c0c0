(** C14: the declared matrices are those of a stationary linear SDE. *)
From Coq Require Import Reals String.
From mathcomp Require Import all_ssreflect all_algebra.
From Verif.Prelude Require Import Rstruct Psd.
From Verif.Spec Require Import Expm Gp Lti WfKernel Cov CovOf.
From Verif.Model Require Import Array BaseKernels IntegratedKernels Kernel.
From Verif.Proofs Require Import Lti KernelProps KernelThms.
Import GRing.Theory.
Local Open Scope R_scope.

Theorem C14_stationary_sde : forall k, wf_kernel k -> declares_lyapunov k ->
  let m := denote k in
  (mF m *m mPinf m + mPinf m *m (mF m)^T + mL m *m mQc m *m (mL m)^T = 0)%R /\
  pdmx (mPinf m).
Proof. exact stationary_sde. Qed.
Print Assumptions C14_stationary_sde.

Theorem C14_noise_psd : forall k X1 X2, wf_kernel k -> noise_kept (lag X1 X2) k ->
  0 <= lag X1 X2 -> psdmx (mQ (denote k) X1 X2).
Proof. exact noise_psd. Qed.
Print Assumptions C14_noise_psd.

Example C14_ex : wf_kernel k_example /\ declares_lyapunov k_example /\
  wf_kernel k_kept /\ noise_kept (lag (CT 0) (CT (flush_dt 1))) k_kept /\
  0 <= lag (CT 0) (CT (flush_dt 1)).
Proof.
split; [exact k_example_wf | split; [repeat split | split; [exact k_kept_wf | rewrite lag0; split]]].
- exact k_kept_noise.
- exact flush_dt_ge0.
Qed.

(** Dropping small entries can make the process noise indefinite. *)
Theorem C14_flush_refuted : exists k X1 X2, wf_kernel k /\ sharp_kernel k /\
  0 <= lag X1 X2 /\ ~ psdmx (mQ (denote k) X1 X2).
Proof. exact flush_psd_refuted. Qed.
Print Assumptions C14_flush_refuted.
