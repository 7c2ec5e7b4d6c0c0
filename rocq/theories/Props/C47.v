(** C47: the dense SHOKernel. *)
From Coq Require Import Reals Lra.
From mathcomp Require Import all_ssreflect.
From Verif.Spec Require Import Cov IntCov DenseCov.
From Verif.Model Require Import BaseKernels Kernel Dense.
From Verif.Proofs Require Import DenseThms DenseRefuted.
Local Open Scope R_scope.

Theorem C47_underdamped_partial : forall S w Q rho tau sig p t1 t2, 0 < S -> 0 < w -> 1 / 2 < Q ->
  dense_init (Some S) (Some w) (Some Q) rho tau sig = inr p ->
  dense_sho_evaluate p (D1 t1) (D1 t2) = inr (sho_cov w Q (sqrt (S * w * Q)) (t1 - t2)) /\
  integrated_evaluate p (D1 t1) (D1 t2) = inr (sho_cov w Q (sqrt (S * w * Q)) (t1 - t2)).
Proof. exact thm_sho. Qed.
Print Assumptions C47_underdamped_partial.

(** Missing: quality factors up to 1/2, where the trigonometric functions are wrong. *)

Theorem C47_overdamped_refuted : exists S w Q p t1 t2, 0 < S /\ 0 < w /\ 0 < Q < 1 / 2 /\
  dense_init (Some S) (Some w) (Some Q) None None None = inr p /\
  dense_sho_evaluate p (D1 t1) (D1 t2) <> inr (sho_cov w Q (sqrt (S * w * Q)) (t1 - t2)).
Proof. exact sho_over_refuted. Qed.
Print Assumptions C47_overdamped_refuted.

Example C47_ex : exists p, dense_init (Some 1) (Some 1) (Some 1) None None None = inr p.
Proof. eexists; reflexivity. Qed.
