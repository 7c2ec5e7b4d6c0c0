(** Integrated models: transition and process noise of the joint process (x, integral of x). *)
From Coq Require Import Reals Lra.
From mathcomp Require Import all_ssreflect all_algebra.
From Coquelicot Require Import Coquelicot.
From Verif.Prelude Require Import Rstruct Zmod MxCalc.
From Verif.Spec Require Import Expm Integral.
From Verif.Model Require Import Array Helpers BaseKernels IntegratedKernels.
From Verif.Proofs Require Import Expm MxInt VanLoan.
Set Implicit Arguments.
Unset Strict Implicit.
Unset Printing Implicit Defensive.
Import GRing.Theory.
Local Open Scope ring_scope.

Section Joint.
Variables (d n : nat) (F : 'M[R]_d).
Let E t := expm (t *: F).
Let pb := Phibar_from_VanLoan F.
(** n copies of the first unit vector. *)
Definition unit_rows : 'M[R]_(n, d) := \matrix_(i, j) if (j : nat) == 0%N then 1 else 0.
Let e := unit_rows.
Let Fa : 'M[R]_(d + n) := block_mx F 0 e 0.

Lemma joint_expm t : expm (t *: Fa) = block_mx (E t) 0 (e *m pb t) 1%:M.
Proof.
pose X t := block_mx (E t) 0 (e *m pb t) (1%:M : 'M[R]_n).
have h x : mxd X x (Fa *m X x).
  have h0 := mxd_block (E_der F x) (mxd_const (0 : 'M[R]_(d, n)) x) (mxd_mull e (pb_der F x))
    (mxd_const (1%:M : 'M[R]_n) x).
  apply: (mxd_eq h0); rewrite /Fa /X mulmx_block !mul0mx !mulmx0 !addr0.
  by rewrite -expm_comm.
have := expm_unique h t; rewrite /X /E E_0 /pb pb_0 mulmx0.
by rewrite -scalar_mx_block mulmx1.
Qed.

Variables (p : nat) (L : 'M[R]_(d, p)) (Qc : 'M[R]_p).
Let W := L *m Qc *m L^T.
Hypothesis sW : W^T = W.
Let La : 'M[R]_(d + n, p) := col_mx L 0.
Let M t := (vl_F3 F L Qc t)^T *m vl_H2 F L Qc t.
Let V t := (vl_F3 F L Qc t)^T *m vl_K1 F L Qc t + ((vl_F3 F L Qc t)^T *m vl_K1 F L Qc t)^T.

Lemma joint_W : La *m Qc *m La^T = block_mx W 0 0 0.
Proof. by rewrite /La tr_col_mx trmx0 mul_col_mx mul0mx mul_col_row !mulmx0 mul0mx. Qed.

Lemma joint_noise t : Q_from_VanLoan Fa La Qc t
  = block_mx (Q_from_VanLoan F L Qc t) (M t *m e^T) (e *m (M t)^T) (e *m V t *m e^T).
Proof.
pose N t := block_mx (Q_from_VanLoan F L Qc t) (M t *m e^T) (e *m (M t)^T) (e *m V t *m e^T).
have h : Q_from_VanLoan Fa La Qc =1 N.
  apply: (mxd_same (h := fun t => expm (t *: Fa) *m (La *m Qc *m La^T) *m (expm (t *: Fa))^T)).
  - by move=> x; apply: Q_der.
  - move=> x; apply: (mxd_eq (mxd_block (Q_der F L Qc x) (mxd_mulr e^T (M_der F L Qc x))
      (mxd_mull e (mxd_tr (M_der F L Qc x))) (mxd_mulr e^T (mxd_mull e (V_der F sW x))))).
    rewrite joint_W joint_expm tr_block_mx !mulmx_block ?trmx0 ?(mulmx0, mul0mx, addr0).
    rewrite -/W -/(E x) -/(pb x) [(e *m pb x)^T]trmx_mul.
    rewrite [(E x *m W *m _)^T]trmx_mul trmxK [(E x *m W)^T]trmx_mul sW !mulmxA.
    by [].
  rewrite /N !Q_0 /M /V H2_0 K1_0 !mulmx0 !trmx0 !addr0 !mulmx0 !mul0mx.
  by rewrite block_mx0.
exact: h.
Qed.
End Joint.

(** The code's block assembly in terms of [unit_rows]. *)
Lemma rows_first d n (A : 'M[R]_d) :
  \matrix_(i < n, j < d) first_row A 0 j = unit_rows d n *m A.
Proof.
apply/matrixP=> i j; rewrite !mxE big_mkcond /=; apply: eq_bigr => k _; rewrite mxE.
by case: ifP => _; rewrite ?mul1r ?mul0r.
Qed.
Lemma cols_first d n (A : 'M[R]_d) :
  \matrix_(i < d, j < n) first_col A i 0 = A *m (unit_rows d n)^T.
Proof.
apply/matrixP=> i j; rewrite !mxE big_mkcond /=; apply: eq_bigr => k _; rewrite !mxE.
by case: ifP => _; rewrite ?mulr1 ?mulr0.
Qed.
Lemma cols_first_tr d n (A : 'M[R]_d) :
  \matrix_(i < n, j < d) first_col A j 0 = unit_rows d n *m A^T.
Proof.
apply/matrixP=> i j; rewrite !mxE big_mkcond /=; apply: eq_bigr => k _; rewrite !mxE.
by case: ifP => _; rewrite ?mul1r ?mul0r.
Qed.
Lemma const_first d n (A : 'M[R]_d) :
  const_mx (first_entry A) = unit_rows d n *m A *m (unit_rows d n)^T.
Proof.
rewrite -mulmxA -cols_first; apply/matrixP=> i j; rewrite !mxE /first_entry big_mkcond /=.
apply: eq_bigr => k _; rewrite !mxE.
by case: ifP => _; rewrite ?mul1r ?mul0r.
Qed.

Section Model.
Variables (b : model) (n : nat).
Variable Phibar : R -> R -> 'M[R]_(md b).
Variable Qaug12 : R -> R -> 'M[R]_(md b, 1).
Variable Qaug22 : R -> R -> R.
Let m := @integrated_model b n Phibar Qaug12 Qaug22.

Lemma integrated_A X1 X2 : mA b (CT (coord_to_sortable X1)) (CT (coord_to_sortable X2))
    = expm (lag X1 X2 *: mF b) ->
  first_row (Phibar (coord_to_sortable X1) (coord_to_sortable X2))
    = first_row (Phibar_from_VanLoan (mF b) (lag X1 X2)) ->
  mA m X1 X2 = expm (lag X1 X2 *: mF m).
Proof.
by move=> hA hP; rewrite [RHS]joint_expm /m /= hA hP rows_first.
Qed.

Hypothesis sW : (mL b *m mQc b *m (mL b)^T)^T = mL b *m mQc b *m (mL b)^T.

Lemma integrated_Q X1 X2 : mQ b (CT R0) (CT (lag X1 X2))
    = Q_from_VanLoan (mF b) (mL b) (mQc b) (lag X1 X2) ->
  Qaug12 (coord_to_sortable X1) (coord_to_sortable X2) = default_Qaug12 b R0 (lag X1 X2) ->
  Qaug22 (coord_to_sortable X1) (coord_to_sortable X2) = default_Qaug22 b R0 (lag X1 X2) ->
  mQ m X1 X2 = Q_from_VanLoan (mF m) (mL m) (mQc m) (lag X1 X2).
Proof.
move=> hQ h12 h22; rewrite [RHS](joint_noise n (mF b) sW) /m /=.
have -> : mQ b (CT R0) (CT (coord_to_sortable X2 - coord_to_sortable X1))
    = Q_from_VanLoan (mF b) (mL b) (mQc b) (lag X1 X2) by rewrite -hQ.
rewrite h12 h22.
have e : lag X1 X2 - R0 = lag X1 X2 by toR; lra.
rewrite /default_Qaug12 /default_Qaug22 e.
by rewrite cols_first cols_first_tr const_first.
Qed.
End Model.
