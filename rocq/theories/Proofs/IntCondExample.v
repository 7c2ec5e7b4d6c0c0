(** The exposures of Proofs/IntExample.v can be smoothed, also in another order. *)
From Coq Require Import Reals String Lra.
From mathcomp Require Import all_ssreflect all_algebra.
From Verif.Prelude Require Import Rstruct Psd.
From Verif.Spec Require Import Data IntCov WfIntegrated Exposures Smoothable.
From Verif.Model Require Import Array BaseKernels IntegratedKernels Kernel Integrated Frontend SequentialOps Gp.
From Verif.Proofs Require Import IntExample.
Set Implicit Arguments.
Unset Strict Implicit.
Unset Printing Implicit Defensive.
Local Open Scope R_scope.

Lemma k_int_noisy : noisy_integrated k_int. Proof. by []. Qed.
Lemma X_int_smoothable : smoothable X_int.
Proof.
split.
  by case=> [|[|[|[|i]]]] // [|[|[|[|j]]]] //= _ _; rewrite /begin /finish /=; toR; lra.
exists 3%N; split=> //.
by case=> [|[|[|[|i]]]] //= _; rewrite /begin /finish /=; toR; lra.
Qed.
Lemma X_int_N : num_coords X_int <> 1%N. Proof. by []. Qed.
Definition idx_int : seq nat := [:: 2; 0; 3; 1]%N.
Lemma idx_int_perm : perm_eq idx_int (iota 0 4). Proof. by []. Qed.
