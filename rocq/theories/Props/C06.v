(** C06: the parallel solver computes the same answer as the sequential one. *)
From Coq Require Import Reals String.
From mathcomp Require Import all_ssreflect all_algebra.
From Verif.Prelude Require Import Rstruct Psd.
From Verif.Spec Require Import Expm Gp Lti WfKernel Cov CovOf LogNormal Data.
From Verif.Model Require Import Array Jax Ssm Sequential Parallel BaseKernels IntegratedKernels Kernel
  Integrated Frontend SequentialOps Gp.
From Verif.Proofs Require Import Names KernelThms FitExample FrontProps ParFront.
Import GRing.Theory.
Local Open Scope R_scope.

(** For every data set in order of time and every kernel that the parallel solver
    accepts (C39 lists those it rejects). *)

Theorem C06_log_probability : forall k X diag mean y gs gp,
  wf_kernel k -> const_obs k -> valid_data X diag y -> steps_kept k (times X) ->
  transition_raises true k = None -> md (denote k) <> 1%N ->
  gaussian_process smolgp_ops k X diag mean (SolverClass StateSpaceSolver) = inr gs ->
  gaussian_process smolgp_ops k X diag mean (SolverClass ParallelStateSpaceSolver) = inr gp ->
  gp_log_probability smolgp_ops gp y = gp_log_probability smolgp_ops gs y.
Proof. exact (fun k X diag mean y gs gp wf co vd kept tr d1 hs hp =>
  par_log_probability wf co vd kept tr d1 hs hp). Qed.
Print Assumptions C06_log_probability.

Theorem C06_condition_predict : forall k X diag mean y gs gp comp,
  wf_kernel k -> const_obs k -> valid_data X diag y -> steps_kept k (times X) ->
  transition_raises true k = None -> md (denote k) <> 1%N ->
  gaussian_process smolgp_ops k X diag mean (SolverClass StateSpaceSolver) = inr gs ->
  gaussian_process smolgp_ops k X diag mean (SolverClass ParallelStateSpaceSolver) = inr gp ->
  match gp_condition smolgp_ops gs y None comp, gp_condition smolgp_ops gp y None comp with
  | inl e, inl e' => e = e'
  | inr (lp, c), inr (lp', c') =>
      lp = lp' /\ g_X c = g_X c' /\ g_mean c = g_mean c' /\ g_var c = g_var c' /\
      forall Xt y' full comp rv, (forall Xt', Xt = Some Xt' -> ~~ is_tuple X && ~~ is_tuple Xt') ->
        gp_predict smolgp_ops c Xt y' full comp rv = gp_predict smolgp_ops c' Xt y' full comp rv
  | _, _ => False
  end.
Proof. exact (fun k X diag mean y gs gp comp wf co vd kept tr d1 hs hp =>
  par_gp_condition wf co vd kept tr d1 hs hp comp). Qed.
Print Assumptions C06_condition_predict.

(** The hypotheses hold together for a sum of an SHO and a product, with four data of
    which two are at the same time. *)
Example C06_ex : wf_kernel k_pk /\ const_obs k_pk /\ valid_data X_ex diag_ex y_ex /\
  steps_kept k_pk (times X_ex) /\
  transition_raises true k_pk = None /\ md (denote k_pk) <> 1%N /\ is_tuple X_ex = false /\
  exists gs gp lp c lp' c',
  gaussian_process smolgp_ops k_pk X_ex diag_ex None (SolverClass StateSpaceSolver) = inr gs /\
  gaussian_process smolgp_ops k_pk X_ex diag_ex None (SolverClass ParallelStateSpaceSolver) = inr gp /\
  gp_condition smolgp_ops gs y_ex None None = inr (lp, c) /\
  gp_condition smolgp_ops gp y_ex None None = inr (lp', c').
Proof.
exact (conj k_pk_wf (conj k_pk_const (conj X_ex_valid (conj X_ex_pk par_front_example)))).
Qed.

(** Exceptions: an exponential kernel, and predictions with exposure times. *)

Theorem C06_exp_refuted : exists k X diag y gs gp,
  wf_kernel k /\ const_obs k /\ names_ok k /\ valid_data X diag y /\ steps_kept k (times X) /\
  gaussian_process smolgp_ops k X diag None (SolverClass StateSpaceSolver) = inr gs /\
  gaussian_process smolgp_ops k X diag None (SolverClass ParallelStateSpaceSolver) = inr gp /\
  (exists lp, gp_log_probability smolgp_ops gs y = inr lp) /\
  (exists e, gp_log_probability smolgp_ops gp y = inl e).
Proof. exact par_exp_refuted. Qed.
Print Assumptions C06_exp_refuted.

Theorem C06_tuple_refuted : exists k X diag y gs gp lp c lp' c' Xt,
  wf_kernel k /\ const_obs k /\ names_ok k /\ valid_data X diag y /\ steps_kept k (times X) /\
  transition_raises true k = None /\ md (denote k) <> 1%N /\
  gaussian_process smolgp_ops k X diag None (SolverClass StateSpaceSolver) = inr gs /\
  gaussian_process smolgp_ops k X diag None (SolverClass ParallelStateSpaceSolver) = inr gp /\
  gp_condition smolgp_ops gs y None None = inr (lp, c) /\
  gp_condition smolgp_ops gp y None None = inr (lp', c') /\
  (exists p, gp_predict smolgp_ops c (Some Xt) None false None true = inr p) /\
  (exists e, gp_predict smolgp_ops c' (Some Xt) None false None true = inl e).
Proof. exact par_tuple_refuted. Qed.
Print Assumptions C06_tuple_refuted.
