(** The process (x, z_1, ..., z_n) where x is the linear SDE with drift F and noise W and
    every z_i is the running integral of the observable h x. *)
From Coq Require Import Reals.
From mathcomp Require Import all_ssreflect all_algebra.
From Verif.Prelude Require Import Rstruct.
From Verif.Spec Require Import Expm Integral.
Set Implicit Arguments.
Unset Strict Implicit.
Unset Printing Implicit Defensive.
Import GRing.Theory.
Local Open Scope ring_scope.

(** The transition matrix and process noise of (x, integral of h x) for n instruments. *)
Section Blocks.
Variables (d n : nat) (F W : 'M[R]_d) (h : 'M[R]_(1, d)).
Let Phi s := expm (s *: F).
Let Phibar s := mxint Phi R0 s.
Definition joint_transition t : 'M[R]_(d + n) :=
  block_mx (Phi t) 0 (\matrix_(i, j) (h *m Phibar t) 0 j) 1%:M.
Definition joint_process_noise t : 'M[R]_(d + n) :=
  block_mx (mxint (fun s => Phi s *m W *m (Phi s)^T) R0 t)
           (\matrix_(i, j) mxint (fun s => Phi s *m W *m (h *m Phibar s)^T) R0 t i 0)
           (\matrix_(i, j) mxint (fun s => Phi s *m W *m (h *m Phibar s)^T) R0 t j 0)
           (const_mx (mxint (fun s => h *m Phibar s *m W *m (h *m Phibar s)^T) R0 t 0 0)).
End Blocks.

