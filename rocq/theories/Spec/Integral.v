(** Entrywise integrals of matrix-valued functions of one real variable. *)
From Coq Require Import Reals.
From mathcomp Require Import all_ssreflect all_algebra.
From Coquelicot Require Import Coquelicot.
From Verif.Prelude Require Import Rstruct.
Set Implicit Arguments.
Unset Strict Implicit.
Unset Printing Implicit Defensive.

(** The integral of f from a to b (Riemann, Coquelicot). *)
Definition mxint m n (f : R -> 'M[R]_(m, n)) (a b : R) : 'M[R]_(m, n) :=
  (\matrix_(i, j) RInt (fun s => f s i j) a b)%R.

(** f is integrable from a to b. *)
Definition ex_mxint m n (f : R -> 'M[R]_(m, n)) (a b : R) : Prop :=
  forall i j, ex_RInt (fun s => f s i j) a b.
