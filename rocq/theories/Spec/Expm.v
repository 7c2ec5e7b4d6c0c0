(** The matrix exponential, as its power series. *)
From Coq Require Import Reals.
From mathcomp Require Import all_ssreflect all_algebra.
From Coquelicot Require Import Coquelicot.
From Verif.Prelude Require Import Rstruct.
Set Implicit Arguments.
Unset Strict Implicit.
Unset Printing Implicit Defensive.
Import GRing.Theory.
Local Open Scope ring_scope.

Fixpoint mxpow n (M : 'M[R]_n) (k : nat) : 'M[R]_n :=
  if k is k'.+1 then M *m mxpow M k' else 1%:M.

(** Term k of the series at entry (i, j). *)
Definition expm_term n (M : 'M[R]_n) (i j : 'I_n) (k : nat) : R :=
  mxpow M k i j / INR (fact k).

Definition expm n (M : 'M[R]_n) : 'M[R]_n :=
  \matrix_(i, j) Series (expm_term M i j).
