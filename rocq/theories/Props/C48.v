(** C48: leaves of dense kernels. *)
From Coq Require Import Reals Lra.
From mathcomp Require Import all_ssreflect.
From Verif.Spec Require Import Cov IntCov DenseCov.
From Verif.Model Require Import BaseKernels Kernel Dense.
From Verif.Proofs Require Import DenseThms DenseRefuted.
Local Open Scope R_scope.

Theorem C48_sums : forall A (k : dtree A), dense_extract_leaf_kernels k false = sum_leaves k.
Proof. exact extract_default. Qed.
Print Assumptions C48_sums.

(** With all=True products below the root are not taken apart. *)

Theorem C48_all_refuted : exists k : dtree nat, dense_extract_leaf_kernels k true <> all_leaves k.
Proof. exact extract_all_refuted. Qed.
Print Assumptions C48_all_refuted.

Example C48_ex : dense_extract_leaf_kernels (DSum (DLeaf 0%nat) (DSum (DLeaf 1%nat) (DLeaf 2%nat))) false
  = [:: DLeaf 0%nat; DLeaf 1%nat; DLeaf 2%nat].
Proof. reflexivity. Qed.
