(** C18: the Van Loan helpers compute the integrals they document. *)
From Coq Require Import Reals String.
From mathcomp Require Import all_ssreflect all_algebra.
From Verif.Prelude Require Import Rstruct Psd.
From Verif.Spec Require Import Expm Integral Gp Lti WfKernel Cov CovOf LogNormal Data.
From Verif.Model Require Import Array Helpers Jax Ssm Sequential Parallel BaseKernels IntegratedKernels Kernel
  Integrated Frontend SequentialOps Gp.
From Verif.Proofs Require Import VanLoan VanLoanThms KernelThms.
Import GRing.Theory.
Local Open Scope R_scope.

(** All dimensions, all matrices, every real time step (negative ones included).  The integrals
    exist (C18_integrable); expm is the power series. *)

Theorem C18_Q : forall n p (F : 'M[R]_n) (L : 'M[R]_(n, p)) (Qc : 'M[R]_p) dt,
  Q_from_VanLoan F L Qc dt
  = mxint (fun s => expm ((dt - s) *: F) *m (L *m Qc *m L^T) *m expm ((dt - s) *: F^T))%R 0 dt.
Proof. exact (fun n p F L Qc dt => @Q_int_doc n F p L Qc dt). Qed.
Print Assumptions C18_Q.

Theorem C18_Phibar : forall n (F : 'M[R]_n) dt, Phibar_from_VanLoan F dt = mxint (fun s => expm (s *: F))%R 0 dt.
Proof. exact pb_intint. Qed.
Print Assumptions C18_Phibar.

Theorem C18_blocks : forall n p (F : 'M[R]_n) (L : 'M[R]_(n, p)) (Qc : 'M[R]_p) dt, (Qc^T = Qc)%R ->
  (let W := L *m Qc *m L^T in
   let Phi s := expm (s *: F) in
   let Phibar s := mxint Phi 0%R s in
   let F3 := vl_F3 F L Qc dt in
   [/\ F3^T = Phi dt, (vl_G3 F L Qc dt)^T = Phibar dt,
       F3^T *m vl_G2 F L Qc dt = mxint (fun s => Phi s *m W *m (Phi s)^T) 0%R dt,
       F3^T *m vl_H2 F L Qc dt = mxint (fun s => Phi s *m W *m (Phibar s)^T) 0%R dt &
       F3^T *m vl_K1 F L Qc dt + (F3^T *m vl_K1 F L Qc dt)^T
         = mxint (fun s => Phibar s *m W *m (Phibar s)^T) 0%R dt])%R.
Proof. exact (fun n p F L Qc dt => @vl_blocks n F p L Qc dt). Qed.
Print Assumptions C18_blocks.

Theorem C18_integrable : forall n p (F : 'M[R]_n) (L : 'M[R]_(n, p)) (Qc : 'M[R]_p) a b,
  ex_mxint (fun s => expm (s *: F))%R a b /\
  ex_mxint (fun s => expm (s *: F) *m (L *m Qc *m L^T) *m (expm (s *: F))^T)%R a b.
Proof. exact (fun n p F L Qc a b => @vl_integrable n F p L Qc a b). Qed.
Print Assumptions C18_integrable.

(** The only hypothesis is met by a 1x1 spectral density. *)
Example C18_ex : ((sho_Qc 2 3 1)^T = sho_Qc 2 3 1)%R.
Proof. by apply: trmx_Qc1. Qed.
