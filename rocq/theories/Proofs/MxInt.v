(** The fundamental theorem of calculus for matrices. *)
From Coq Require Import Reals Lra.
From mathcomp Require Import all_ssreflect all_algebra.
From Coquelicot Require Import Coquelicot.
From Verif.Prelude Require Import Rstruct Zmod MxCalc.
From Verif.Spec Require Import Expm Integral.
From Verif.Proofs Require Import Expm.
Set Implicit Arguments.
Unset Strict Implicit.
Unset Printing Implicit Defensive.
Import GRing.Theory.
Local Open Scope ring_scope.

Definition mxc m n (f : R -> 'M[R]_(m, n)) : Prop :=
  forall i j x, continuous (fun s => f s i j) x.

Section MxInt.
Variables m n : nat.
Implicit Types f g : R -> 'M[R]_(m, n).

Lemma mxd_mxc f (g : R -> 'M[R]_(m, n)) : (forall x, mxd f x (g x)) -> mxc f.
Proof. by move=> h i j x; apply: ex_derive_continuous; exists (g x i j); apply: h. Qed.

Lemma is_mxint f g a b : (forall x, mxd f x (g x)) -> mxc g ->
  forall i j, is_RInt (fun s => g s i j) a b (Rminus (f b i j) (f a i j)).
Proof.
move=> h hc i j.
by apply: (is_RInt_derive (fun s => f s i j)) => x _; [apply: h | apply: hc].
Qed.

Lemma mxintE f g a b : (forall x, mxd f x (g x)) -> mxc g -> mxint g a b = f b - f a.
Proof.
move=> h hc; apply/matrixP=> i j; rewrite !mxE.
exact (is_RInt_unique _ _ _ _ (@is_mxint f g a b h hc i j)).
Qed.

Lemma mxc_ex f a b : mxc f -> ex_mxint f a b.
Proof. by move=> h i j; apply: ex_RInt_continuous => x _; apply: h. Qed.

Lemma mxint_der f a x : mxc f -> mxd (mxint f a) x (f x).
Proof.
move=> h i j; apply: (der_ext (f := fun b => RInt (fun s => f s i j) a b)).
  by move=> b; rewrite mxE.
refine (is_derive_RInt (fun s => f s i j) (fun b => RInt (fun s => f s i j) a b) a x _ _);
  last exact: h.
by apply: filter_forall => b; apply: RInt_correct; apply: ex_RInt_continuous => z _; apply: h.
Qed.

Lemma mxint0 f a : mxint f a a = 0.
Proof. by apply/matrixP=> i j; rewrite !mxE RInt_point. Qed.

Lemma mxc_const (C : 'M[R]_(m, n)) : mxc (fun=> C).
Proof. by move=> i j x; apply: continuous_const. Qed.

Lemma mxint_ext f g a b : f =1 g -> mxint f a b = mxint g a b.
Proof. by move=> e; apply/matrixP=> i j; rewrite !mxE; apply: RInt_ext => x _; rewrite e. Qed.
End MxInt.

(** Uniqueness of antiderivatives. *)
Lemma mxd_same m n (f g h : R -> 'M[R]_(m, n)) : (forall x, mxd f x (h x)) ->
  (forall x, mxd g x (h x)) -> f 0 = g 0 -> f =1 g.
Proof.
move=> hf hg e x.
have hd y : mxd (fun s => f s - g s) y 0.
  by apply: (mxd_eq (mxd_sub (hf y) (hg y))); rewrite subrr.
have := mxd0_const hd x 0; rewrite e subrr => /eqP.
by rewrite subr_eq0 => /eqP.
Qed.

(** Derivatives of blocks. *)
Section Sub.
Variables m1 m2 n1 n2 : nat.
Variables (A : R -> 'M[R]_(m1 + m2, n1 + n2)) (x : R) (D : 'M[R]_(m1 + m2, n1 + n2)).
Hypothesis h : mxd A x D.
Lemma mxd_ul : mxd (fun s => ulsubmx (A s)) x (ulsubmx D).
Proof.
by move=> i j; rewrite !mxE; apply: der_ext (h (lshift _ i) (lshift _ j)) => s; rewrite !mxE.
Qed.
Lemma mxd_ur : mxd (fun s => ursubmx (A s)) x (ursubmx D).
Proof.
by move=> i j; rewrite !mxE; apply: der_ext (h (lshift _ i) (rshift _ j)) => s; rewrite !mxE.
Qed.
Lemma mxd_dl : mxd (fun s => dlsubmx (A s)) x (dlsubmx D).
Proof.
by move=> i j; rewrite !mxE; apply: der_ext (h (rshift _ i) (lshift _ j)) => s; rewrite !mxE.
Qed.
Lemma mxd_dr : mxd (fun s => drsubmx (A s)) x (drsubmx D).
Proof.
by move=> i j; rewrite !mxE; apply: der_ext (h (rshift _ i) (rshift _ j)) => s; rewrite !mxE.
Qed.
End Sub.

(** Exponentials of block upper triangular matrices. *)
Section Tri.
Variables (p q : nat) (A : 'M[R]_p) (B : 'M[R]_(p, q)) (D : 'M[R]_q).
Let C := block_mx A B 0 D.
Let E t := expm (t *: C).

Let Ed t : mxd E t (C *m E t) := expm_derl C t.
Let Eb t : C *m E t = block_mx (A *m ulsubmx (E t) + B *m dlsubmx (E t))
                               (A *m ursubmx (E t) + B *m drsubmx (E t))
                               (D *m dlsubmx (E t)) (D *m drsubmx (E t)).
Proof. by rewrite -{1}[E t]submxK /C mulmx_block !mul0mx !add0r. Qed.
Let E0 : E 0 = 1%:M. Proof. by rewrite /E scale0r expm0. Qed.

Lemma tri_dl t : dlsubmx (E t) = 0.
Proof.
have h x : mxd (fun s => dlsubmx (E s)) x (D *m dlsubmx (E x)).
  by apply: (mxd_eq (mxd_dl (Ed x))); rewrite Eb block_mxKdl.
rewrite (expm_unique h) E0.
by rewrite -[1%:M]submxK !(scalar_mx_block, block_mxKdl) mulmx0.
Qed.

Lemma tri_dr t : drsubmx (E t) = expm (t *: D).
Proof.
have h x : mxd (fun s => drsubmx (E s)) x (D *m drsubmx (E x)).
  by apply: (mxd_eq (mxd_dr (Ed x))); rewrite Eb block_mxKdr.
by rewrite (expm_unique h) E0 scalar_mx_block block_mxKdr mulmx1.
Qed.

Lemma tri_ul t : ulsubmx (E t) = expm (t *: A).
Proof.
have h x : mxd (fun s => ulsubmx (E s)) x (A *m ulsubmx (E x)).
  by apply: (mxd_eq (mxd_ul (Ed x))); rewrite Eb block_mxKul tri_dl mulmx0 addr0.
by rewrite (expm_unique h) E0 scalar_mx_block block_mxKul mulmx1.
Qed.

Lemma tri_ur_d t : mxd (fun s => ursubmx (E s)) t (A *m ursubmx (E t) + B *m expm (t *: D)).
Proof. by apply: (mxd_eq (mxd_ur (Ed t))); rewrite Eb block_mxKur tri_dr. Qed.

Lemma tri_ur_dr t : mxd (fun s => ursubmx (E s)) t (expm (t *: A) *m B + ursubmx (E t) *m D).
Proof.
apply: (mxd_eq (mxd_ur (expm_derr C t))).
rewrite -/(E t) -{1}[E t]submxK /C mulmx_block block_mxKur tri_ul.
by [].
Qed.

Lemma tri_ur0 : ursubmx (E 0) = 0.
Proof. by rewrite E0 scalar_mx_block block_mxKur. Qed.
End Tri.
