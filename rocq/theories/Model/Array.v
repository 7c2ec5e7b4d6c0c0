(** jnp array literals and a few numpy functions on reals. *)
From Coq Require Import Reals.
From mathcomp Require Import all_ssreflect all_algebra.
From Verif.Prelude Require Import Rstruct.
Set Implicit Arguments.
Unset Strict Implicit.
Unset Printing Implicit Defensive.
Local Open Scope R_scope.

(** jnp.array([[...], ...]) *)
Definition mat (m n : nat) (rows : seq (seq R)) : 'M[R]_(m, n) :=
  \matrix_(i, j) nth R0 (nth [::] rows i) j.

(** scalar * array *)
Definition smul (m n : nat) (c : R) (M : 'M[R]_(m, n)) : 'M[R]_(m, n) := (c *: M)%R.

(** jnp.square *)
Definition sq (x : R) : R := x * x.

(** jnp.expm1 *)
Definition expm1 (x : R) : R := exp x - 1.

(** jnp.allclose(a, b) on scalars with its default tolerances rtol = 1e-5,
    atol = 1e-8. *)
Definition allclose (a b : R) : bool :=
  Rleb (Rabs (a - b)) (/ 10 ^ 8 + / 10 ^ 5 * Rabs b).

(** jnp.where(jnp.abs(x) < 1e-14, 0, x)
    (kernels/base.py:703-705, kernels/integrated.py:399-400) *)
Definition flush (x : R) : R := if Rltb (Rabs x) (/ 10 ^ 14) then 0 else x.
