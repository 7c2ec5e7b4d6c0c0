(** C40: return_v_S only selects what is returned. *)
From Coq Require Import Reals String.
From mathcomp Require Import all_ssreflect all_algebra.
From Verif.Prelude Require Import Rstruct Psd.
From Verif.Spec Require Import Expm Gp Lti WfKernel Cov CovOf LogNormal Data.
From Verif.Model Require Import Array Jax Ssm Sequential Parallel BaseKernels IntegratedKernels Kernel
  Integrated Frontend SequentialOps Gp.
From Verif.Proofs Require Import KernelThms FitThms FitMore FitLin FrontThms FitExample FitRefute FrontDefined FrontProps.
Import GRing.Theory.
Local Open Scope R_scope.

Theorem C40_kalman : forall kd s y b,
  (forall e, so_kalman (smolgp_ops kd) s y b = inl e <-> so_kalman (smolgp_ops kd) s y (~~ b) = inl e) /\
  (forall r r', so_kalman (smolgp_ops kd) s y b = inr r -> so_kalman (smolgp_ops kd) s y (~~ b) = inr r' ->
     [/\ kr_mf r = kr_mf r', kr_Pf r = kr_Pf r', kr_mp r = kr_mp r', kr_Pp r = kr_Pp r'
       & isSome (kr_vS r) = b]).
Proof. exact return_v_S_kalman. Qed.
Print Assumptions C40_kalman.

Theorem C40_condition : forall kd s y, kd <> ParallelStateSpaceSolver -> forall b,
  (forall e, so_condition (smolgp_ops kd) s y b = inl e <-> so_condition (smolgp_ops kd) s y (~~ b) = inl e) /\
  (forall r r', so_condition (smolgp_ops kd) s y b = inr r -> so_condition (smolgp_ops kd) s y (~~ b) = inr r' ->
     [/\ r_coords r = r_coords r', (r_mp r, r_Pp r) = (r_mp r', r_Pp r'),
         (r_mf r, r_Pf r) = (r_mf r', r_Pf r'), (r_ms r, r_Ps r) = (r_ms r', r_Ps r')
       & isSome (r_vS r) = b]).
Proof. exact return_v_S_condition. Qed.
Print Assumptions C40_condition.

(** A conditioned GP exists. *)
Example C40_ex : exists g lp c,
  gaussian_process smolgp_ops k_kept X_ex diag_ex None NoSolver = inr g /\
  g_states g = None /\ gp_condition smolgp_ops g y_ex None None = inr (lp, c) /\
  exists st, g_states c = Some st.
Proof. exact cond_example. Qed.

(** ParallelStateSpaceSolver.condition(y, return_v_S=False) always raises, ... *)

Theorem C40_parallel_raises : forall s y,
  exists e, so_condition (smolgp_ops ParallelStateSpaceSolver) s y false = inl e.
Proof. exact parallel_return_v_S. Qed.
Print Assumptions C40_parallel_raises.

(** ... although condition(y, return_v_S=True) may return. *)

Theorem C40_parallel_refuted : exists s y,
  (exists r, so_condition (smolgp_ops ParallelStateSpaceSolver) s y true = inr r) /\
  (exists e, so_condition (smolgp_ops ParallelStateSpaceSolver) s y false = inl e).
Proof. exact parallel_v_S_refuted. Qed.
Print Assumptions C40_parallel_refuted.
