(** Covariances of the states of an integrated kernel with running exposures. *)
From Coq Require Import Reals Lra.
From mathcomp Require Import all_ssreflect all_algebra.
From Coquelicot Require Import Coquelicot.
From Verif.Prelude Require Import Rstruct Zmod Psd MxCalc.
From Verif.Spec Require Import Expm Integral Lti IntCov.
From Verif.Model Require Import Array Helpers BaseKernels IntegratedKernels.
From Verif.Proofs Require Import Expm MxInt VanLoan Lti Joint LagInt.
Set Implicit Arguments.
Unset Strict Implicit.
Unset Printing Implicit Defensive.
Import GRing.Theory.
Local Open Scope ring_scope.

(** ** The covariance equation of a linear SDE *)
Section Flow.
Variables (n p : nat) (F : 'M[R]_n) (L : 'M[R]_(n, p)) (Qc : 'M[R]_p).
Let E (s : R) := expm (s *: F).
Let W := L *m Qc *m L^T.

Lemma noise_ode t : E t *m W *m (E t)^T
  = W + F *m Q_from_VanLoan F L Qc t + Q_from_VanLoan F L Qc t *m F^T.
Proof.
pose h t := F *m (E t *m W *m (E t)^T) + E t *m W *m (E t)^T *m F^T.
have e : (fun t => E t *m W *m (E t)^T)
    =1 fun t => W + F *m Q_from_VanLoan F L Qc t + Q_from_VanLoan F L Qc t *m F^T.
  apply: (mxd_same (h := h)).
  - move=> x; apply: mxd_eq (mxd_mul (mxd_mulr W (E_derl F x)) (mxd_tr (E_derl F x))) _.
    by rewrite /h trmx_mul !mulmxA.
  - move=> x; apply: mxd_eq (mxd_add (mxd_add (mxd_const W x) (mxd_mull F (Q_der F L Qc x)))
       (mxd_mulr F^T (Q_der F L Qc x))) _.
    by rewrite add0r.
  - by rewrite Q_0 mulmx0 mul0mx !addr0 /E scale0r expm0 trmx1 mul1mx mulmx1.
exact: e.
Qed.

Lemma lyap_flow (X : R -> 'M[R]_n) :
  (forall s, mxd X s (F *m X s + X s *m F^T + W)) ->
  forall s, X s = E s *m X 0 *m (E s)^T + Q_from_VanLoan F L Qc s.
Proof.
move=> hX.
pose Y s := X s - (E s *m X 0 *m (E s)^T + Q_from_VanLoan F L Qc s).
have hY s : mxd Y s (F *m Y s + Y s *m F^T).
  have h1 := mxd_mul (mxd_mulr (X 0) (E_derl F s)) (mxd_tr (E_derl F s)).
  apply: mxd_eq (mxd_sub (hX s) (mxd_add h1 (Q_der F L Qc s))) _.
  rewrite -/W -/(E s) noise_ode trmx_mul /Y.
  by repeat (progress mxdist); rewrite -?/(E s) ?mulmxA; zmod.
pose D s := expm (s *: - F).
have hZ s : mxd (fun s => D s *m Y s *m (D s)^T) s 0.
  have h1 := mxd_mul (mxd_mul (E_der (- F) s) (hY s)) (mxd_tr (E_der (- F) s)).
  apply: mxd_eq h1 _; have hFt : (- F)^T = - F^T by apply/matrixP=> i j; rewrite !mxE.
  rewrite -/(D s) trmx_mul hFt ?mulmxN ?mulNmx.
  by repeat (progress mxdist); rewrite ?mulNmx ?mulmxN ?mulmxA; zmod.
have Y0 : Y 0 = 0.
  by rewrite /Y Q_0 addr0 /E scale0r expm0 trmx1 mul1mx mulmx1 subrr.
move=> s; apply/eqP; rewrite -subr_eq0; apply/eqP; rewrite -[LHS]/(Y s).
have Z0 : D s *m Y s *m (D s)^T = 0.
  by rewrite (mxd0_const hZ s 0) Y0 mulmx0 mul0mx.
have c1 : E s *m D s = 1%:M := E_cancel F s.
have c2 : (D s)^T *m (E s)^T = 1%:M by rewrite -trmx_mul c1 trmx1.
have -> : Y s = E s *m (D s *m Y s *m (D s)^T) *m (E s)^T.
  by rewrite !mulmxA c1 mul1mx -mulmxA c2 mulmx1.
by rewrite Z0 mulmx0 mul0mx.
Qed.

Lemma lin_flow (C : R -> 'cV[R]_n) : (forall s, mxd C s (F *m C s)) ->
  forall s, C s = E s *m C 0.
Proof.
move=> hC s; pose D s := expm (s *: - F).
have hZ x : mxd (fun s => D s *m C s) x 0.
  apply: mxd_eq (mxd_mul (E_der (- F) x) (hC x)) _.
  by rewrite -/(D x) mulmxN mulNmx !mulmxA addNr.
have c1 : E s *m D s = 1%:M := E_cancel F s.
have : D s *m C s = C 0 by rewrite (mxd0_const hZ s 0) /D scale0r expm0 mul1mx.
by move=> <-; rewrite mulmxA c1 mul1mx.
Qed.

(** The noise accumulated over a positive time is a covariance. *)
Lemma noise_psd_vl t : psdmx W -> Rle 0 t -> psdmx (Q_from_VanLoan F L Qc t).
Proof.
move=> pW t0; have sW : W^T = W by case: pW.
split.
  have := @mxd_same _ _ (fun s => (Q_from_VanLoan F L Qc s)^T) (Q_from_VanLoan F L Qc)
    (fun s => E s *m W *m (E s)^T).
  apply.
  - by move=> x; apply: mxd_eq (mxd_tr (Q_der F L Qc x)) _; rewrite trmx_mul trmxK trmx_mul sW mulmxA.
  - by move=> x; apply: Q_der.
  - by rewrite Q_0 trmx0.
move=> x.
have hd s : der (fun s => qf (Q_from_VanLoan F L Qc s) x) s (qf (E s *m W *m (E s)^T) x).
  exact: (mxd_mulr x (mxd_mull x^T (Q_der F L Qc s))) 0 0.
have := @der_ge0_le (fun s => qf (Q_from_VanLoan F L Qc s) x) (fun s => qf (E s *m W *m (E s)^T) x) t hd _ t0.
rewrite Q_0 qf0l => h; apply/RleP; apply: h => y _; apply/RleP.
by have [_] := psd_conj (E y) pW; apply.
Qed.
End Flow.
