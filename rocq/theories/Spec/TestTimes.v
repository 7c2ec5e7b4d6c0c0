(** Test times for the integrated models. *)
From Coq Require Import Reals.
From mathcomp Require Import all_ssreflect all_algebra.
From Verif.Prelude Require Import Rstruct.
From Verif.Spec Require Import Data IntCov Exposures.
From Verif.Model Require Import BaseKernels Kernel Frontend.
Set Implicit Arguments.
Unset Strict Implicit.
Unset Printing Implicit Defensive.

(** The process noise is exact (see [all_noise_kept]) for the time between s and the
    boundaries next to it. *)
Definition test_kept (k : kernel) (X : coords) (s : R) : Prop :=
  forall u, boundary X u ->
    (forall v, boundary X v -> ~ (Rlt u v /\ Rlt v s) /\ ~ (Rlt s v /\ Rlt v u)) ->
    all_noise_kept (Rabs (Rminus s u)) k.
