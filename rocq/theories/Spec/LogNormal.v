(** The log density of a centred multivariate normal distribution. *)
From Coq Require Import Reals.
From mathcomp Require Import all_ssreflect all_algebra.
From Verif.Prelude Require Import Rstruct.
From Verif.Spec Require Import Gp.
Set Implicit Arguments.
Unset Strict Implicit.
Unset Printing Implicit Defensive.

(** log N(y; 0, K + diag(d)) with K[i,j] = kern(xs[i], xs[j]):
    -1/2 (y^T (K+D)^-1 y + ln det (K+D) + N ln (2 pi)). *)
Definition log_normal (X : Type) (x0 : X) (kern : X -> X -> R) (xs : seq X) (d y : seq R) : R :=
  Rmult (Ropp (Rdiv 1 2))
    (Rplus (Rplus (gp_quad x0 kern xs d y) (ln (gp_det x0 kern xs d)))
           (Rmult (INR (size xs)) (ln (Rmult 2 PI)))).
