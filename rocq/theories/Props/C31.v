(** C31: dense integrated kernel dispatch is total and symmetric. *)
From Coq Require Import Reals Lra.
From mathcomp Require Import all_ssreflect.
From Verif.Spec Require Import Cov IntCov DenseCov.
From Verif.Model Require Import BaseKernels Kernel Dense.
From Verif.Proofs Require Import DenseThms DenseRefuted.
Local Open Scope R_scope.

(** [dispatch] is the list of the conditions under which evaluate assigns its result: exactly one
    holds, for all real numbers. *)

Theorem C31_one_case : forall p Delta delta1 delta2, count id (dispatch p Delta delta1 delta2) = 1%nat.
Proof. exact dispatch_one. Qed.
Print Assumptions C31_one_case.

Theorem C31_symmetric : forall p X1 X2, integrated_evaluate p X1 X2 = integrated_evaluate p X2 X1.
Proof. exact evaluate_sym. Qed.
Print Assumptions C31_symmetric.

(** Touching exposures. *)
Example C31_ex : exists p, dense_init (Some 1) (Some (2 * PI)) (Some 1) None None None = inr p.
Proof. eexists; reflexivity. Qed.
