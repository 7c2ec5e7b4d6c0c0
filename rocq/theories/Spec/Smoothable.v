(** When the integrated smoother is well defined. *)
From Coq Require Import Reals.
From mathcomp Require Import all_ssreflect all_algebra.
From Verif.Prelude Require Import Rstruct.
From Verif.Spec Require Import Data IntCov Exposures.
From Verif.Model Require Import Array BaseKernels Kernel Frontend.
Set Implicit Arguments.
Unset Strict Implicit.
Unset Printing Implicit Defensive.

(** No component without process noise (IntegratedCosine has none). *)
Fixpoint noisy_integrated (k : kernel) : Prop :=
  match k with
  | Sum k1 k2 => noisy_integrated k1 /\ noisy_integrated k2
  | IntegratedCosine _ _ _ _ => False
  | _ => True
  end.

(** No two exposures begin at the same time, and some exposure ends after all have begun. *)
Record smoothable (X : coords) : Prop := Smoothable {
  sm_begins : forall i j, (i < num_coords X)%N -> (j < num_coords X)%N ->
    begin (exposure X i) = begin (exposure X j) -> i = j;
  sm_last : exists i, (i < num_coords X)%N /\
    forall j, (j < num_coords X)%N -> Rlt (begin (exposure X j)) (finish (exposure X i))
}.
