(** C34: the predict front-end variants agree. *)
From Coq Require Import Reals String.
From mathcomp Require Import all_ssreflect all_algebra.
From Verif.Prelude Require Import Rstruct Psd.
From Verif.Spec Require Import Expm Gp Lti WfKernel Cov CovOf LogNormal Data.
From Verif.Model Require Import Array Jax Ssm Sequential Parallel BaseKernels IntegratedKernels Kernel
  Integrated Frontend SequentialOps Gp.
From Verif.Proofs Require Import KernelThms FitThms FitMore FitLin FrontThms FitExample FitRefute FrontDefined FrontProps.
Import GRing.Theory.
Local Open Scope R_scope.

Theorem C34_predict_with_data : forall ops g y lp c Xt fs kn rv, g_states g = None ->
  gp_condition ops g y None None = inr (lp, c) ->
  gp_predict ops g Xt (Some y) fs kn rv = gp_predict ops c Xt None fs kn rv.
Proof. exact predict_with_y. Qed.
Print Assumptions C34_predict_with_data.

Theorem C34_predict_with_data_raises : forall ops g y e Xt fs kn rv, g_states g = None ->
  gp_condition ops g y None None = inl e ->
  gp_predict ops g Xt (Some y) fs kn rv = inl e.
Proof. exact predict_with_y_raises. Qed.
Print Assumptions C34_predict_with_data_raises.

Theorem C34_predict_without_data : forall ops g Xt fs kn rv, g_states g = None ->
  gp_predict ops g Xt None fs kn rv = inl AssertionError.
Proof. exact predict_needs_data. Qed.
Print Assumptions C34_predict_without_data.

(** A conditioned GP already has data; data passed to its predict is ignored. *)

Theorem C34_predict_conditioned_with_data : forall ops g st y y' Xt fs kn rv, g_states g = Some st ->
  gp_predict ops g Xt y fs kn rv = gp_predict ops g Xt y' fs kn rv.
Proof. exact (fun ops g st y y' Xt fs kn rv h => predict_ignores_y ops y y' Xt fs kn rv h). Qed.
Print Assumptions C34_predict_conditioned_with_data.

Theorem C34_predict_loc : forall ops g st y, g_states g = Some st ->
  (exists d, gp_predict ops g None y false None false
     = inr (existT prediction d (PMean (Vector (g_mean g))))) /\
  (exists d, gp_predict ops g None y false None true
     = inr (existT prediction d (PMeanVar (Vector (g_mean g)) (g_var g)))).
Proof. exact (fun ops g st y h => predict_loc ops y h). Qed.
Print Assumptions C34_predict_loc.

Theorem C34_full_state : forall ops g st y Xt kn rv, g_states g = Some st ->
  (exists e, gp_predict ops g (Some Xt) y true kn rv = inl e /\
     forall kn' rv', gp_predict ops g (Some Xt) y false kn' rv' = inl e) \/
  (exists d (p : pstates d),
     gp_predict ops g (Some Xt) y true kn rv = inr (existT prediction d (PFull p)) /\
     gp_predict ops g (Some Xt) y false None true
       = inr (existT prediction d (PMeanVar (ps_loc p) (Some (ps_variance p)))) /\
     forall name, exists mu va, ps_get_component p [:: name] = inr (mu, va) /\
       gp_predict ops g (Some Xt) y false (Some name) true
         = inr (existT prediction d (PMeanVar mu (Some va)))).
Proof. exact (fun ops g st y Xt kn rv h => predict_full ops y Xt kn rv h). Qed.
Print Assumptions C34_full_state.

(** A conditioned GP exists. *)
Example C34_ex : exists g lp c,
  gaussian_process smolgp_ops k_kept X_ex diag_ex None NoSolver = inr g /\
  g_states g = None /\ gp_condition smolgp_ops g y_ex None None = inr (lp, c) /\
  exists st, g_states c = Some st.
Proof. exact cond_example. Qed.
