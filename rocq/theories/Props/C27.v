(** C27: the parallel integrated solver computes the same answer as the sequential one. *)
From Coq Require Import Reals String.
From mathcomp Require Import all_ssreflect all_algebra.
From Verif.Prelude Require Import Rstruct Psd.
From Verif.Spec Require Import Gp WfKernel Data IntCov WfIntegrated Exposures Smoothable FirstOpen.
From Verif.Model Require Import Array Jax Ssm Kernel Frontend Gp.
From Verif.Proofs Require Import IntThms IntExample FitIntCond IntCondThms IntNarrowThms ParIntFront ParIntRefute.
Local Open Scope R_scope.

(** Every data set whose first boundary in time is the beginning of an exposure ([opens_first]),
    and every kernel that the parallel solver accepts. *)

Theorem C27_log_probability : forall k X diag mean y gs gp,
  wf_integrated k -> valid_exposures (instruments k) X diag y ->
  exposure_steps_kept k X -> opens_first X -> transition_raises true k = None ->
  gaussian_process smolgp_ops k X diag mean (SolverClass IntegratedStateSpaceSolver) = inr gs ->
  gaussian_process smolgp_ops k X diag mean (SolverClass ParallelIntegratedStateSpaceSolver) = inr gp ->
  gp_log_probability smolgp_ops gp y = gp_log_probability smolgp_ops gs y.
Proof. exact int_par_lp. Qed.
Print Assumptions C27_log_probability.

(** Conditioning gives the same mean and variance, or the same error, and then every prediction is
    the same, when no two exposures begin together (C25 shows the failure of the smoother there). *)

Theorem C27_condition_predict : forall k X diag mean y gs gp comp,
  wf_integrated k -> valid_exposures (instruments k) X diag y ->
  exposure_steps_kept k X -> opens_first X -> transition_raises true k = None ->
  noisy_integrated k -> distinct_begins X ->
  gaussian_process smolgp_ops k X diag mean (SolverClass IntegratedStateSpaceSolver) = inr gs ->
  gaussian_process smolgp_ops k X diag mean (SolverClass ParallelIntegratedStateSpaceSolver) = inr gp ->
  match gp_condition smolgp_ops gs y None comp, gp_condition smolgp_ops gp y None comp with
  | inl e, inl e' => e = e'
  | inr (lp, c), inr (lp', c') =>
      lp = lp' /\ g_X c = g_X c' /\ g_mean c = g_mean c' /\ g_var c = g_var c' /\
      forall Xt y' full comp rv,
        gp_predict smolgp_ops c Xt y' full comp rv = gp_predict smolgp_ops c' Xt y' full comp rv
  | _, _ => False
  end.
Proof. exact int_par_cond. Qed.
Print Assumptions C27_condition_predict.

(** Overlapping exposures on two instruments. *)
Example C27_ex : wf_integrated k_pint /\ valid_exposures (instruments k_pint) X_int diag_int y_int /\
  exposure_steps_kept k_pint X_int /\ opens_first X_int /\ transition_raises true k_pint = None /\
  noisy_integrated k_pint /\ distinct_begins X_int /\
  exists gs gp lp c lp' c',
  gaussian_process smolgp_ops k_pint X_int diag_int None (SolverClass IntegratedStateSpaceSolver) = inr gs /\
  gaussian_process smolgp_ops k_pint X_int diag_int None (SolverClass ParallelIntegratedStateSpaceSolver) = inr gp /\
  gp_condition smolgp_ops gs y_int None None = inr (lp, c) /\
  gp_condition smolgp_ops gp y_int None None = inr (lp', c').
Proof.
exact (conj k_pint_wf (conj X_int_valid (conj (plain_steps (X:=X_int) k_pint_wf (conj I I))
  (conj X_int_first (conj Logic.eq_refl (conj (conj I I) (conj X_int_distinct int_par_example))))))).
Qed.

(** When the first exposure has length 0, its end comes first and its datum does not update
    the state. *)

Theorem C27_first_end_refuted : exists k X diag y gs gp,
  [/\ wf_integrated k, plain_integrated k, transition_raises true k = None,
      distinct_begins X & valid_exposures (instruments k) X diag y] /\
  gaussian_process smolgp_ops k X diag None (SolverClass IntegratedStateSpaceSolver) = inr gs /\
  gaussian_process smolgp_ops k X diag None (SolverClass ParallelIntegratedStateSpaceSolver) = inr gp /\
  gp_log_probability smolgp_ops gp y <> gp_log_probability smolgp_ops gs y.
Proof. exact int_par_refuted. Qed.
Print Assumptions C27_first_end_refuted.

(** IntegratedExp works with the sequential solver only. *)

Theorem C27_exp_refuted : exists k X diag y gs gp,
  [/\ wf_integrated k, plain_integrated k, opens_first X, distinct_begins X &
      valid_exposures (instruments k) X diag y] /\
  gaussian_process smolgp_ops k X diag None (SolverClass IntegratedStateSpaceSolver) = inr gs /\
  gaussian_process smolgp_ops k X diag None (SolverClass ParallelIntegratedStateSpaceSolver) = inr gp /\
  (exists lp, gp_log_probability smolgp_ops gs y = inr lp) /\
  (exists e, gp_log_probability smolgp_ops gp y = inl e).
Proof. exact int_par_exp_refuted. Qed.
Print Assumptions C27_exp_refuted.
