(** src/smolgp/helpers.py.
    jax.scipy.linalg.expm (a Pade approximation with scaling and squaring in JAX)
    is modelled by the exact matrix exponential of Spec/Expm.v. *)
From Coq Require Import Reals.
From mathcomp Require Import all_ssreflect all_algebra.
From Verif.Prelude Require Import Rstruct.
From Verif.Spec Require Import Expm.
Set Implicit Arguments.
Unset Strict Implicit.
Unset Printing Implicit Defensive.
Import GRing.Theory.
Local Open Scope ring_scope.

Section Helpers.
Variables (b p : nat).
Implicit Types (F : 'M[R]_b) (L : 'M[R]_(b, p)) (Qc : 'M[R]_p) (dt : R).

(** Q_from_VanLoan, helpers.py:14-38.  The slices [:b, b:] and [b:, b:] are the
    upper right and lower right blocks. *)
Definition Q_from_VanLoan F L Qc dt : 'M[R]_b :=
  let QL := L *m Qc *m L^T in
  let C : 'M[R]_(b + b) := block_mx (- F) QL 0 F^T in
  let E := expm (dt *: C) in
  let G2 := ursubmx E in
  let F3 := drsubmx E in
  F3^T *m G2.

(** Phibar_from_VanLoan, helpers.py:41-62. *)
Definition Phibar_from_VanLoan F dt : 'M[R]_b :=
  let C : 'M[R]_(b + b) := block_mx F 1%:M 0 0 in
  ursubmx (expm (dt *: C)).

(** VanLoan, helpers.py:65-121, with block_view (helpers.py:6-11): the 4b x 4b
    matrix is written as a 2 x 2 block matrix of 2b x 2b matrices, each of them
    2 x 2 blocks of size b. Only the blocks used by the callers (F3, H2, K1,
    kernels/integrated.py:170-173) and their companions G2, G3 are projected. *)
Definition vl_C F L Qc : 'M[R]_((b + b) + (b + b)) :=
  let QL := L *m Qc *m L^T in
  block_mx
    (block_mx (- F) 1%:M 0 (- F)) (block_mx 0 0 QL 0)
    0                             (block_mx F^T 1%:M 0 0).

Definition vl_E F L Qc dt := expm (dt *: vl_C F L Qc).

Definition vl_H2 F L Qc dt : 'M[R]_b := drsubmx (ursubmx (vl_E F L Qc dt)).
Definition vl_K1 F L Qc dt : 'M[R]_b := ursubmx (ursubmx (vl_E F L Qc dt)).
Definition vl_G2 F L Qc dt : 'M[R]_b := dlsubmx (ursubmx (vl_E F L Qc dt)).
Definition vl_F3 F L Qc dt : 'M[R]_b := ulsubmx (drsubmx (vl_E F L Qc dt)).
Definition vl_G3 F L Qc dt : 'M[R]_b := ursubmx (drsubmx (vl_E F L Qc dt)).

End Helpers.
