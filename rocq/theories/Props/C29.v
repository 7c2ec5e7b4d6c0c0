(** C29: integrated transition and process noise. *)
From Coq Require Import Reals String.
From mathcomp Require Import all_ssreflect all_algebra.
From Verif.Prelude Require Import Rstruct Psd.
From Verif.Spec Require Import Expm Integral JointProcess Gp Lti WfKernel WfIntegrated Cov CovOf LogNormal Data.
From Verif.Model Require Import Array Helpers Jax Ssm Sequential Parallel BaseKernels IntegratedKernels Kernel
  Integrated Frontend SequentialOps Gp.
From Verif.Proofs Require Import KernelProps KernelThms IntegratedThms Lti.
Import GRing.Theory.
Local Open Scope R_scope.

(** [joint_transition] and [joint_process_noise] (Spec/JointProcess.v) are those of the process
    (x, integral of h x, ..., integral of h x) where x is the base process; the matrices of k and of
    the joint process have the same type up to the equation e.  Any number n of instruments;
    jnp.allclose(quality, 1/2) must not misjudge the quality factor ([sharp_kernel], see C12). *)

Theorem C29_transition : forall py k b n X1 X2 X A, integrated_of k = Some (b, n) ->
  wf_kernel b -> sharp_kernel b -> kernel_transition py k X1 X2 = inr A ->
  A = expm (lag X1 X2 *: mF (denote k))%R /\
  exists e : md (denote k) = (md (denote b) + n)%N,
    castmx (e, e) A = joint_transition n (mF (denote b)) (mH (denote b) X) (lag X1 X2).
Proof. exact int_transition. Qed.
Print Assumptions C29_transition.

Theorem C29_noise_partial : forall k b n X1 X2 X, integrated_of k = Some (b, n) ->
  wf_kernel b -> sharp_kernel b -> 0 <= lag X1 X2 ->
  noise_kept (lag X1 X2) b -> integral_noise_kept (lag X1 X2) k ->
  mQ (denote k) X1 X2
  = Q_from_VanLoan (mF (denote k)) (mL (denote k)) (mQc (denote k)) (lag X1 X2) /\
  exists e : md (denote k) = (md (denote b) + n)%N,
    castmx (e, e) (mQ (denote k) X1 X2)
    = joint_process_noise n (mF (denote b))
        (mL (denote b) *m mQc (denote b) *m (mL (denote b))^T)%R
        (mH (denote b) X) (lag X1 X2).
Proof. exact int_noise. Qed.
Print Assumptions C29_noise_partial.

Example C29_ex : integrated_of k_isho = Some (SHO 1 1 1 "i", 2%N) /\
  wf_kernel (SHO 1 1 1 "i") /\ sharp_kernel (SHO 1 1 1 "i") /\
  0 <= lag (CT 0) (CT isho_dt) /\
  noise_kept (lag (CT 0) (CT isho_dt)) (SHO 1 1 1 "i") /\
  integral_noise_kept (lag (CT 0) (CT isho_dt)) k_isho.
Proof. exact k_isho_ex. Qed.

(** IntegratedSHO's closed forms (before rounding small entries to 0) are the Van Loan blocks. *)

Theorem C29_analytic : forall w q sigma dt, 0 < w -> 1 / 2 < q ->
  let b := sho_model w q sigma in
  [/\ isho_Phibar_underdamped w q dt = default_Phibar b 0 dt,
      isho_Q12_raw w q sigma dt = default_Qaug12 b 0 dt &
      0 <= dt -> isho_Q22_raw w q sigma dt = default_Qaug22 b 0 dt].
Proof. exact isho_analytic. Qed.
Print Assumptions C29_analytic.

(** Without the hypotheses about rounding the noise is not the exact one. *)

Theorem C29_noise_refuted : exists k b n X1 X2, integrated_of k = Some (b, n) /\ wf_kernel b /\
  sharp_kernel b /\ 0 <= lag X1 X2 /\
  mQ (denote k) X1 X2
  <> Q_from_VanLoan (mF (denote k)) (mL (denote k)) (mQc (denote k)) (lag X1 X2).
Proof. exact int_flush_refuted. Qed.
Print Assumptions C29_noise_refuted.
