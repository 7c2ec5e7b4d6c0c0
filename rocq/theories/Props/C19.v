(** C19: the two ways of computing process noise agree. *)
From Coq Require Import Reals String.
From mathcomp Require Import all_ssreflect all_algebra.
From Verif.Prelude Require Import Rstruct Psd.
From Verif.Spec Require Import Expm Integral Gp Lti WfKernel Cov CovOf LogNormal Data.
From Verif.Model Require Import Array Helpers Jax Ssm Sequential Parallel BaseKernels IntegratedKernels Kernel
  Integrated Frontend SequentialOps Gp.
From Verif.Proofs Require Import VanLoan VanLoanThms KernelProps KernelThms Lti.
Import GRing.Theory.
Local Open Scope R_scope.

(** process_noise(X1, X2, use_van_loan=True) and process_noise(X1, X2) of the base class. *)

Theorem C19_default : forall d p (F : 'M[R]_d) (L : 'M[R]_(d, p)) (Qc : 'M[R]_p) (Pinf : 'M[R]_d) X1 X2,
  (F *m Pinf + Pinf *m F^T + L *m Qc *m L^T = 0)%R ->
  default_process_noise F L Qc Pinf (default_transition F) true X1 X2
  = default_process_noise F L Qc Pinf (default_transition F) false X1 X2.
Proof. exact van_loan_default. Qed.
Print Assumptions C19_default.

(** A two-dimensional model that is not one of the built-in ones. *)
Example C19_ex : (vl_ex_F2 *m vl_ex_P + vl_ex_P *m vl_ex_F2^T + 1%:M *m (2%:R)%:M *m (1%:M)^T = 0)%R.
Proof. exact vl_ex_lyap. Qed.

(** The process noise every kernel expression uses is the Van Loan one of the matrices it
    declares ([sharp_kernel], [noise_kept]: see C12 and C13). *)

Theorem C19_kernel : forall py k X1 X2 A, wf_kernel k -> sharp_kernel k -> declares_lyapunov k ->
  noise_kept (lag X1 X2) k -> kernel_transition py k X1 X2 = inr A ->
  mQ (denote k) X1 X2
  = Q_from_VanLoan (mF (denote k)) (mL (denote k)) (mQc (denote k)) (lag X1 X2).
Proof. exact van_loan_kernel. Qed.
Print Assumptions C19_kernel.

Example C19_kernel_ex : wf_kernel k_kept /\ sharp_kernel k_kept /\ declares_lyapunov k_kept /\
  noise_kept (lag (CT 0) (CT (flush_dt 1))) k_kept
  /\ exists A, kernel_transition false k_kept (CT 0) (CT (flush_dt 1)) = inr A.
Proof.
split; [exact k_kept_wf | split; [exact k_kept_sharp | split; [repeat split | split; [rewrite lag0; exact k_kept_noise | apply transition_defined; repeat split]]]].
Qed.
