(** Where the parallel integrated solver agrees with the sequential one. *)
From Coq Require Import Reals.
From mathcomp Require Import all_ssreflect all_algebra.
From Verif.Prelude Require Import Rstruct.
From Verif.Spec Require Import Data IntCov Exposures.
From Verif.Model Require Import Array BaseKernels Kernel Frontend.
Set Implicit Arguments.
Unset Strict Implicit.
Unset Printing Implicit Defensive.

(** Some exposure begins before all the others (and itself) have ended: the first of all the
    boundaries is a beginning. *)
Definition opens_first (X : coords) : Prop := exists i, (i < num_coords X)%N /\
  forall j, (j < num_coords X)%N -> Rlt (begin (exposure X i)) (finish (exposure X j)).

(** No two exposures begin at the same time. *)
Definition distinct_begins (X : coords) : Prop :=
  forall i j, (i < num_coords X)%N -> (j < num_coords X)%N ->
    begin (exposure X i) = begin (exposure X j) -> i = j.
