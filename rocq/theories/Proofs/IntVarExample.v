(** The exposures of IntUnitsExample without the one of length 0. *)
From Coq Require Import Reals String Lra.
From mathcomp Require Import all_ssreflect all_algebra.
From Verif.Prelude Require Import Rstruct.
From Verif.Spec Require Import WfKernel CovOf Data IntCov WfIntegrated Exposures Smoothable TestTimes
  Transform IntTransform.
From Verif.Model Require Import Array BaseKernels IntegratedKernels Kernel Integrated Frontend SequentialOps Gp.
From Verif.Proofs Require Import FitInt IntThms IntPredThms IntExample IntUnits IntUnitsExample.
Set Implicit Arguments.
Unset Strict Implicit.
Unset Printing Implicit Defensive.
Local Open Scope R_scope.

Definition X_wo : coords :=
  CTriple (without 2 [:: 1; 0; 3; 5]) (without 2 [:: 2; 3; 0; 1]) (without 2 [:: 0; 1; 0; 0]%N).
Lemma X_wo_valid : valid_exposures 2 X_wo (Some (Vector (without 2 d_ut))) (without 2 y_int).
Proof.
split=> //.
- by case=> [|[|[|i]]] //= _; toR; lra.
- by case=> [|[|[|i]]].
- by case=> [|[|[|i]]] // [|[|[|j]]] //= _ _; rewrite /begin /finish /=; toR; lra.
- by case=> [|[|[|i]]] //= _; toR; lra.
Qed.
Lemma X_wo_smooth : smoothable X_wo.
Proof.
split.
  by case=> [|[|[|i]]] // [|[|[|j]]] //= _ _; rewrite /begin /finish /=; toR; lra.
exists 2%N; split=> //.
by case=> [|[|[|i]]] //= _; rewrite /begin /finish /=; toR; lra.
Qed.
Lemma wo_example : exists g g1,
  [/\ int_gp_of k_int b_int X_ut (Some (Vector d_ut)) y_int g,
      int_gp_of k_int b_int X_wo (Some (Vector (without 2 d_ut))) (without 2 y_int) g1,
      smooth_of k_int X_ut /\ smooth_of k_int X_wo &
      forall ts, int_tests_kept k_int X_ut ts /\ int_tests_kept k_int X_wo ts].
Proof.
have [g [_ [_ [[h _ _] [so _ _]]]]] := ut_example.
have hs : default_integrated_solver NoSolver by left.
have [g1 hg1] := int_defined k_int_wf None hs X_wo_valid k_int_names.
exists g, g1; split=> //.
- split; [exact: k_int_wf|by []|exact: X_wo_valid|exact: (plain_steps (X := X_wo) k_int_wf k_int_plain)|by exists None, NoSolver].
- by split=> //; split=> //; exact: X_wo_smooth.
Qed.
