(** The statements about the Van Loan helpers (C18, C19). *)
From Coq Require Import Reals Lra String.
From mathcomp Require Import all_ssreflect all_algebra.
From Coquelicot Require Import Coquelicot.
From Verif.Prelude Require Import Rstruct Zmod Psd MxCalc.
From Verif.Spec Require Import Expm Integral Lti WfKernel.
From Verif.Model Require Import Array Helpers BaseKernels IntegratedKernels Kernel.
From Verif.Proofs Require Import Expm MxInt VanLoan Lti KernelProps KernelThms.
Set Implicit Arguments.
Unset Strict Implicit.
Unset Printing Implicit Defensive.
Import GRing.Theory.
Local Open Scope ring_scope.

Lemma sym_LQL n p (L : 'M[R]_(n, p)) (Qc : 'M[R]_p) : Qc^T = Qc ->
  (L *m Qc *m L^T)^T = L *m Qc *m L^T.
Proof. by move=> s; rewrite !trmx_mul trmxK s mulmxA. Qed.

Lemma vl_integrable n (F : 'M[R]_n) p (L : 'M[R]_(n, p)) (Qc : 'M[R]_p) a b :
  ex_mxint (fun s => expm (s *: F)) a b /\
  ex_mxint (fun s => expm (s *: F) *m (L *m Qc *m L^T) *m (expm (s *: F))^T) a b.
Proof. by split; apply: mxc_ex; [exact: E_c | exact: Qd_c]. Qed.

Lemma pb_intint n (F : 'M[R]_n) t : Phibar_from_VanLoan F t = mxint (fun s => expm (s *: F)) R0 t.
Proof. exact: pb_int. Qed.

Lemma vl_blocks n (F : 'M[R]_n) p (L : 'M[R]_(n, p)) (Qc : 'M[R]_p) t : Qc^T = Qc ->
  let W := L *m Qc *m L^T in
  let Phi s := expm (s *: F) in
  let Phibar s := mxint Phi R0 s in
  let F3 := vl_F3 F L Qc t in
  [/\ F3^T = Phi t, (vl_G3 F L Qc t)^T = Phibar t,
      F3^T *m vl_G2 F L Qc t = mxint (fun s => Phi s *m W *m (Phi s)^T) R0 t,
      F3^T *m vl_H2 F L Qc t = mxint (fun s => Phi s *m W *m (Phibar s)^T) R0 t &
      F3^T *m vl_K1 F L Qc t + (F3^T *m vl_K1 F L Qc t)^T
        = mxint (fun s => Phibar s *m W *m (Phibar s)^T) R0 t].
Proof.
move=> s W Phi Phibar F3.
have pbE x : Phibar x = Phibar_from_VanLoan F x by rewrite pb_int.
split.
- by rewrite /F3 vl_F3E trmxK.
- by rewrite vl_G3E trmxK pbE.
- by rewrite /F3 G2_Q Q_int.
- rewrite /F3 M_int; apply: mxint_ext => x; by rewrite pbE.
- rewrite /F3 (V_int F (sym_LQL L s)); apply: mxint_ext => x; by rewrite pbE.
Qed.

Lemma van_loan_default d p (F : 'M[R]_d) (L : 'M[R]_(d, p)) (Qc : 'M[R]_p) (Pinf : 'M[R]_d) X1 X2 :
  F *m Pinf + Pinf *m F^T + L *m Qc *m L^T = 0 ->
  default_process_noise F L Qc Pinf (default_transition F) true X1 X2
  = default_process_noise F L Qc Pinf (default_transition F) false X1 X2.
Proof. by move=> h; rewrite /default_process_noise (Q_lyap _ h). Qed.

Lemma van_loan_kernel py k X1 X2 A : wf_kernel k -> sharp_kernel k -> declares_lyapunov k ->
  noise_kept (lag X1 X2) k -> kernel_transition py k X1 X2 = inr A ->
  mQ (denote k) X1 X2 = Q_from_VanLoan (mF (denote k)) (mL (denote k)) (mQc (denote k)) (lag X1 X2).
Proof.
move=> wf sk dl nk hA; rewrite (noise_formula wf nk hA) (transition_expm wf sk hA).
by rewrite (Q_lyap _ (proj1 (stationary_sde wf dl))).
Qed.

(** A nilpotent and a rotating design matrix, with a noise on the second state. *)
Definition vl_ex_F : 'M[R]_2 := \matrix_(i, j) if (i < j)%N then 1 else 0.
Definition vl_ex_P : 'M[R]_2 := 1%:M.
Definition vl_ex_F2 : 'M[R]_2 := \matrix_(i, j) if (i < j)%N then 1 else if (j < i)%N then -1 else - (1%:R).
Lemma vl_ex_lyap : vl_ex_F2 *m vl_ex_P + vl_ex_P *m vl_ex_F2^T + 1%:M *m (2%:R)%:M *m (1%:M)^T = 0.
Proof.
rewrite /vl_ex_P mulmx1 !mul1mx trmx1 mulmx1; apply/matrixP=> i j; rewrite !mxE.
case: (ltngtP (i : nat) j) => h.
- by rewrite -val_eqE /= (ltn_eqF h) mulr0n addr0 subrr.
- by rewrite -val_eqE /= eq_sym (ltn_eqF h) mulr0n addr0 addNr.
- by rewrite -val_eqE /= h eqxx mulr1n -opprD addNr.
Qed.
Lemma trmx_Qc1 w q s : (sho_Qc w q s)^T = sho_Qc w q s.
Proof. by apply/matrixP=> i j; rewrite mxE !ord1. Qed.
Lemma k_kept_sharp : sharp_kernel k_kept.
Proof.
rewrite /=; repeat split; left; apply/negP => /RlebP.
by rewrite !Rabs_pos_eq; toR; lra.
Qed.
