(** The Van Loan helpers as integrals. *)
From Coq Require Import Reals Lra.
From mathcomp Require Import all_ssreflect all_algebra.
From Coquelicot Require Import Coquelicot.
From Verif.Prelude Require Import Rstruct Zmod MxCalc.
From Verif.Spec Require Import Expm Integral.
From Verif.Model Require Import Helpers BaseKernels.
From Verif.Proofs Require Import Expm MxInt.
Set Implicit Arguments.
Unset Strict Implicit.
Unset Printing Implicit Defensive.
Import GRing.Theory.
Local Open Scope ring_scope.

Section VanLoan.
Variables (n : nat) (F : 'M[R]_n).
Let E t := expm (t *: F).

Lemma E_der t : mxd E t (E t *m F). Proof. exact: expm_derr. Qed.
Lemma E_derl t : mxd E t (F *m E t). Proof. exact: expm_derl. Qed.
Lemma E_c : mxc E. Proof. exact: mxd_mxc E_der. Qed.
Lemma E_0 : E 0 = 1%:M. Proof. by rewrite /E scale0r expm0. Qed.
Lemma E_tr t : expm (t *: F^T) = (E t)^T.
Proof. by rewrite -expm_tr linearZ. Qed.
Lemma E_cancel t : E t *m expm (t *: - F) = 1%:M.
Proof. by rewrite scalerN -scaleNr expm_neg_mul. Qed.

(** Phibar *)
Lemma pb_der t : mxd (Phibar_from_VanLoan F) t (E t).
Proof. by apply: (mxd_eq (tri_ur_dr F 1%:M 0 t)); rewrite mulmx1 mulmx0 addr0. Qed.
Lemma pb_0 : Phibar_from_VanLoan F 0 = 0. Proof. exact: tri_ur0. Qed.
Lemma pb_c : mxc (Phibar_from_VanLoan F). Proof. exact: mxd_mxc pb_der. Qed.
Lemma pb_int t : Phibar_from_VanLoan F t = mxint E 0 t.
Proof. by rewrite (mxintE 0 t pb_der E_c) pb_0 subr0. Qed.
Lemma pb_left t : E t = 1%:M + F *m Phibar_from_VanLoan F t.
Proof.
have h : E =1 fun t => 1%:M + F *m Phibar_from_VanLoan F t.
  apply: (mxd_same (h := fun t => F *m E t)).
  - exact: E_derl.
  - move=> x; apply: (mxd_eq (mxd_add (mxd_const 1%:M x) (mxd_mull F (pb_der x)))).
    by rewrite add0r.
  by rewrite E_0 pb_0 mulmx0 addr0.
exact: h.
Qed.

Section Q.
Variables (p : nat) (L : 'M[R]_(n, p)) (Qc : 'M[R]_p).
Let W := L *m Qc *m L^T.

(** Q *)
Let Qd t := E t *m W *m (E t)^T.
Lemma Qd_der t : mxd Qd t (E t *m F *m W *m (E t)^T + E t *m W *m (E t *m F)^T).
Proof. exact: (mxd_mul (mxd_mulr W (E_der t)) (mxd_tr (E_der t))). Qed.
Lemma Qd_c : mxc Qd. Proof. exact: mxd_mxc Qd_der. Qed.

Lemma Q_vlE t : Q_from_VanLoan F L Qc t
  = E t *m ursubmx (expm (t *: block_mx (- F) W 0 F^T)).
Proof. by rewrite /Q_from_VanLoan tri_dr E_tr trmxK. Qed.

Lemma Q_der t : mxd (Q_from_VanLoan F L Qc) t (Qd t).
Proof.
apply: (mxd_ext (A := fun t => E t *m ursubmx (expm (t *: block_mx (- F) W 0 F^T)))).
  by move=> s; rewrite Q_vlE.
apply: (mxd_eq (mxd_mul (E_der t) (tri_ur_d (- F) W F^T t))).
by rewrite E_tr mulmxDr mulNmx mulmxN /Qd /W !mulmxA addrA subrr add0r.
Qed.
Lemma Q_0 : Q_from_VanLoan F L Qc 0 = 0.
Proof. by rewrite Q_vlE tri_ur0 mulmx0. Qed.
Lemma Q_int t : Q_from_VanLoan F L Qc t = mxint Qd 0 t.
Proof. by rewrite (mxintE 0 t Q_der Qd_c) Q_0 subr0. Qed.

(** The documented form, with the transition over the remaining time. *)
Lemma Q_int_doc t : Q_from_VanLoan F L Qc t
  = mxint (fun s => expm ((t - s) *: F) *m W *m expm ((t - s) *: F^T)) 0 t.
Proof.
have h x : mxd (fun s => - Q_from_VanLoan F L Qc (t - s)) x (Qd (t - x)).
  have h1 : mxd (fun s => Q_from_VanLoan F L Qc (Ropp s)) (x - t) (- Qd (t - x)).
    have := @mxd_neg _ _ (Q_from_VanLoan F L Qc) (x - t) (Qd (t - x)).
    apply; have -> : Ropp (x - t) = t - x by toR; lra.
    exact: Q_der.
  have h2 := mxd_opp (@mxd_shift _ _ (fun s => Q_from_VanLoan F L Qc (Ropp s)) x (- t) _ h1).
  rewrite opprK in h2; apply: mxd_ext h2 => s.
  by have -> : Ropp (s + - t) = t - s by toR; lra.
have hc : mxc (fun s => Qd (t - s)).
  move=> i j x.
  refine (continuous_comp (fun s : R => Rminus t s) (fun s => Qd s i j) x _ (@Qd_c i j _)).
  exact: (continuous_minus (fun=> t) (fun s => s) x (continuous_const _ _) (continuous_id _)).
rewrite (mxint_ext (g := fun s => Qd (t - s))); last first.
  by move=> s; rewrite /Qd E_tr.
rewrite (mxintE 0 t h hc) opprK.
transitivity (- Q_from_VanLoan F L Qc 0 + Q_from_VanLoan F L Qc t).
  by rewrite Q_0 oppr0 add0r.
by congr (- Q_from_VanLoan F L Qc _ + Q_from_VanLoan F L Qc _); toR; lra.
Qed.

(** If the Lyapunov equation holds, the stationary form is the same. *)
Lemma Q_lyap (P : 'M[R]_n) t : F *m P + P *m F^T + W = 0 ->
  Q_from_VanLoan F L Qc t = P - E t *m P *m (E t)^T.
Proof.
move=> hl.
have h : Q_from_VanLoan F L Qc =1 fun t => P - E t *m P *m (E t)^T.
  apply: (mxd_same (h := Qd)); first exact: Q_der.
    move=> x; apply: mxd_eq.
      apply: mxd_sub; first exact: mxd_const.
      apply: mxd_mul; last by apply: mxd_tr; apply: E_der.
      by apply: mxd_mulr; apply: E_der.
    rewrite /Qd trmx_mul; move: (E x) => e.
    have -> : W = - (F *m P + P *m F^T) by apply/eqP; rewrite -addr_eq0 addrC hl.
    mxzmod.
  by rewrite Q_0 E_0 mul1mx trmx1 mulmx1 subrr.
exact: h.
Qed.

(** The four-by-four block matrix *)
Let C1 := block_mx (- F) 1%:M 0 (- F).
Let C2 : 'M[R]_(n + n) := block_mx 0 0 W 0.
Let C3 : 'M[R]_(n + n) := block_mx F^T 1%:M 0 0.
Let pb := Phibar_from_VanLoan F.

Lemma vl_C3 t : expm (t *: C3) = block_mx (E t)^T (pb t)^T 0 1%:M.
Proof.
rewrite -[LHS]submxK tri_ul tri_dl tri_dr E_tr.
have -> : expm (t *: (0 : 'M[R]_n)) = 1%:M by rewrite scaler0 expm0.
congr block_mx.
have h : (fun t => ursubmx (expm (t *: C3))) =1 fun t => (pb t)^T.
  apply: (mxd_same (h := fun t => (E t)^T)).
  - by move=> x; apply: (mxd_eq (tri_ur_dr _ _ _ x)); rewrite mulmx1 mulmx0 addr0 E_tr.
  - by move=> x; apply: mxd_tr; apply: pb_der.
  by rewrite tri_ur0 /pb pb_0 linear0.
exact: h.
Qed.

Lemma vl_F3E t : vl_F3 F L Qc t = (E t)^T.
Proof. by rewrite /vl_F3 /vl_E /vl_C tri_dr -/C3 vl_C3 block_mxKul. Qed.
Lemma vl_G3E t : vl_G3 F L Qc t = (pb t)^T.
Proof. by rewrite /vl_G3 /vl_E /vl_C tri_dr -/C3 vl_C3 block_mxKur. Qed.

Lemma vl_ur_der t : mxd (fun s => ursubmx (vl_E F L Qc s)) t
  (block_mx (- F *m ulsubmx (ursubmx (vl_E F L Qc t)) + vl_G2 F L Qc t)
            (- F *m vl_K1 F L Qc t + vl_H2 F L Qc t)
            (- F *m vl_G2 F L Qc t + W *m (E t)^T)
            (- F *m vl_H2 F L Qc t + W *m (pb t)^T)).
Proof.
apply: (mxd_eq (tri_ur_d C1 C2 C3 t)).
rewrite vl_C3 -[X in C1 *m X]submxK /C1 /C2 !mulmx_block add_block_mx.
rewrite !mul0mx !mul1mx !addr0 !add0r.
by congr block_mx.
Qed.

Lemma H2_der t : mxd (vl_H2 F L Qc) t (- F *m vl_H2 F L Qc t + W *m (pb t)^T).
Proof. by apply: (mxd_eq (mxd_dr (vl_ur_der t))); rewrite block_mxKdr. Qed.
Lemma G2_der t : mxd (vl_G2 F L Qc) t (- F *m vl_G2 F L Qc t + W *m (E t)^T).
Proof. by apply: (mxd_eq (mxd_dl (vl_ur_der t))); rewrite block_mxKdl. Qed.
Lemma K1_der t : mxd (vl_K1 F L Qc) t (- F *m vl_K1 F L Qc t + vl_H2 F L Qc t).
Proof. by apply: (mxd_eq (mxd_ur (vl_ur_der t))); rewrite block_mxKur. Qed.
Lemma ur_0 : ursubmx (vl_E F L Qc 0) = 0. Proof. exact: tri_ur0. Qed.
Lemma G2_0 : vl_G2 F L Qc 0 = 0.
Proof. by rewrite /vl_G2 ur_0; apply/matrixP=> i j; rewrite !mxE. Qed.
Lemma H2_0 : vl_H2 F L Qc 0 = 0.
Proof. by rewrite /vl_H2 ur_0; apply/matrixP=> i j; rewrite !mxE. Qed.
Lemma K1_0 : vl_K1 F L Qc 0 = 0.
Proof. by rewrite /vl_K1 ur_0; apply/matrixP=> i j; rewrite !mxE. Qed.

(** F3^T G2 is again Q. *)
Lemma G2_Q t : (vl_F3 F L Qc t)^T *m vl_G2 F L Qc t = Q_from_VanLoan F L Qc t.
Proof.
have h : (fun t => E t *m vl_G2 F L Qc t) =1 Q_from_VanLoan F L Qc.
  apply: (mxd_same (h := Qd)); [|exact: Q_der|].
    move=> x; apply: (mxd_eq (mxd_mul (E_der x) (G2_der x))).
    by rewrite mulmxDr mulNmx mulmxN /Qd /W !mulmxA addrA subrr add0r.
  by rewrite Q_0 G2_0 mulmx0.
by rewrite vl_F3E trmxK; exact: h.
Qed.

(** F3^T H2: the covariance of the noise with the integrated noise. *)
Let Md t := E t *m W *m (pb t)^T.
Lemma Md_der t : mxd Md t (E t *m F *m W *m (pb t)^T + E t *m W *m (E t)^T).
Proof. exact: (mxd_mul (mxd_mulr W (E_der t)) (mxd_tr (pb_der t))). Qed.
Let M t := (vl_F3 F L Qc t)^T *m vl_H2 F L Qc t.
Lemma M_der t : mxd M t (Md t).
Proof.
apply: (mxd_ext (A := fun t => E t *m vl_H2 F L Qc t)).
  by move=> s; rewrite /M vl_F3E trmxK.
apply: (mxd_eq (mxd_mul (E_der t) (H2_der t))).
by rewrite mulmxDr mulNmx mulmxN /Md /W !mulmxA addrA subrr add0r.
Qed.
Lemma M_0 : M 0 = 0. Proof. by rewrite /M H2_0 mulmx0. Qed.
Lemma M_int t : M t = mxint Md 0 t.
Proof. by rewrite (mxintE 0 t M_der (mxd_mxc Md_der)) M_0 subr0. Qed.

(** F3^T K1 + its transpose: the covariance of the integrated noise. *)
Hypothesis sW : W^T = W.
Let V t := (vl_F3 F L Qc t)^T *m vl_K1 F L Qc t + ((vl_F3 F L Qc t)^T *m vl_K1 F L Qc t)^T.
Let Vd t := pb t *m W *m (pb t)^T.
Lemma MMt t : M t + (M t)^T = Vd t.
Proof.
have h : (fun t => M t + (M t)^T) =1 Vd.
  apply: (mxd_same (h := fun t => Md t + (Md t)^T)).
  - by move=> x; apply: mxd_add; [|apply: mxd_tr]; apply: M_der.
  - move=> x; apply: (mxd_eq (mxd_mul (mxd_mulr W (pb_der x)) (mxd_tr (pb_der x)))).
    by rewrite /Md -/(pb x) -/W [(E x *m W *m _)^T]trmx_mul trmxK [(E x *m W)^T]trmx_mul sW mulmxA.
  by rewrite /Vd M_0 /pb pb_0 trmx0 mulmx0 addr0.
exact: h.
Qed.
Lemma V_der t : mxd V t (Vd t).
Proof.
have h x : mxd (fun t => (vl_F3 F L Qc t)^T *m vl_K1 F L Qc t) x (M x).
  apply: (mxd_ext (A := fun t => E t *m vl_K1 F L Qc t)).
    by move=> s; rewrite vl_F3E trmxK.
  apply: (mxd_eq (mxd_mul (E_der x) (K1_der x))).
  by rewrite mulmxDr mulNmx mulmxN !mulmxA addrA subrr add0r /M vl_F3E trmxK.
by apply: (mxd_eq (mxd_add (h t) (mxd_tr (h t)))); rewrite MMt.
Qed.
Lemma V_0 : V 0 = 0.
Proof. by rewrite /V K1_0 mulmx0 trmx0 addr0. Qed.
Lemma Vd_c : mxc Vd.
Proof. exact: (mxd_mxc (fun x => mxd_mul (mxd_mulr W (pb_der x)) (mxd_tr (pb_der x)))). Qed.
Lemma V_int t : V t = mxint Vd 0 t.
Proof. by rewrite (mxintE 0 t V_der Vd_c) V_0 subr0. Qed.

End Q.
End VanLoan.
