(** Names of the summands of a kernel expression. *)
From Coq Require Import Reals String.
From mathcomp Require Import all_ssreflect all_algebra.
From Verif.Prelude Require Import Rstruct.
From Verif.Spec Require Import Gp WfKernel Data.
From Verif.Model Require Import BaseKernels Kernel Frontend.
Set Implicit Arguments.
Unset Strict Implicit.
Unset Printing Implicit Defensive.

Definition summand_names (k : kernel) : seq string := map kname (summands k).

(** n occurs at least twice in s *)
Definition repeated (n : string) (s : seq string) : Prop :=
  exists s1 s2 s3, s = s1 ++ n :: s2 ++ n :: s3.

(** n followed by an underscore and a number *)
Definition numbered (n : string) (i : nat) : string := (n ++ "_" ++ nat_string i)%string.

(** The classes whose constructor uses the argument name. *)
Definition renameable (k : kernel) : Prop :=
  match k with Product _ _ | Sum _ _ | Matern _ _ _ | PeriodicTerm _ _ _ => False | _ => True end.

(** No summand is a product, and a summand whose name occurs more than once can be
    renamed, and none of its numbered versions is in use. *)
Definition names_free (k : kernel) : Prop :=
  forall k', List.In k' (summands k) ->
    ~ is_product k' /\
    (repeated (kname k') (summand_names k) ->
       renameable k' /\ forall i, ~ List.In (numbered (kname k') i) (summand_names k)).

(** Posterior mean and variance, given noisy values ys of the whole process at xs, of
    a component with covariance function ki that is independent of the rest of the
    process, whose covariance function is kern. *)
Section Component.
Variables (X : Type) (x0 : X) (ki kern : X -> X -> R).
Definition comp_mean (xs : seq X) (rs ys : seq R) (x : X) : R :=
  post_mean (cross x0 ki x xs) (data_cov (gram x0 kern xs) (row_of _ rs)) (col_of _ ys) 0%R 0%R.
Definition comp_var (xs : seq X) (rs : seq R) (x : X) : R :=
  post_cov (ki x x)%:M%R (cross x0 ki x xs) (data_cov (gram x0 kern xs) (row_of _ rs)) 0%R 0%R.
End Component.
