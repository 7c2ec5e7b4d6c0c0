(** C23: integrated solver bookkeeping. *)
From Coq Require Import Reals String.
From mathcomp Require Import all_ssreflect all_algebra.
From Verif.Prelude Require Import Rstruct Psd.
From Verif.Spec Require Import Expm Gp Lti WfKernel Cov CovOf LogNormal Data IntCov WfIntegrated Exposures.
From Verif.Model Require Import Array Jax Ssm Sequential Parallel BaseKernels IntegratedKernels Kernel
  Integrated Frontend SequentialOps Gp.
From Verif.Proofs Require Import KernelThms IntegratedThms FitInt IntOrder IntThms IntExample.
Import GRing.Theory.
Local Open Scope R_scope.

(** Both integrated solvers use the same state coordinates; any order of the input. *)

Theorem C23_states : forall s tm dl inst, sv_X s = CTriple tm dl inst ->
  (forall i, (i < size tm)%N -> 0 <= nth 0 dl i) ->
  exists t obs st, int_state_coords s = SCtuple t inst obs st /\
  [/\ size t = (2 * size tm)%N, size obs = (2 * size tm)%N & size st = (2 * size tm)%N] /\
  (forall i j, (i <= j)%N -> (j < 2 * size tm)%N -> nth 0 t i <= nth 0 t j) /\
  (forall i j, (i <= j)%N -> (j < 2 * size tm)%N -> nth 0 t i = nth 0 t j ->
     nth 0%N st j = 1%N -> nth 0%N st i = 1%N) /\
  (forall n, (n < size tm)%N ->
     exists a b, [/\ (a < 2 * size tm)%N, nth 0%N obs a = n, nth 0%N st a = 0%N &
                     nth 0 t a = begin (exposure (sv_X s) n)] /\
                 [/\ (b < 2 * size tm)%N, nth 0%N obs b = n, nth 0%N st b = 1%N &
                     nth 0 t b = finish (exposure (sv_X s) n)] /\
                 (0 < len (exposure (sv_X s) n) -> (a < b)%N) /\
                 forall c, (c < 2 * size tm)%N -> nth 0%N obs c = n -> c = a \/ c = b).
Proof. exact state_bookkeeping. Qed.
Print Assumptions C23_states.

(** What condition returns uses these coordinates. *)

Theorem C23_solvers : forall s y b r,
  so_condition int_ops s y b = inr r \/ so_condition int_par_ops s y b = inr r ->
  r_coords r = int_state_coords s.
Proof. exact condition_coords. Qed.
Print Assumptions C23_solvers.

(** project_at_data uses, for the n-th result, the end state of the n-th exposure. *)

Theorem C23_order : forall d (c : cstates d) s tm dl inst t obs st, sv_X s = CTriple tm dl inst ->
  int_state_coords s = SCtuple t inst obs st ->
  cs_X c = sv_X s -> cs_obsid c = obs -> cs_stateid c = st ->
  size (data_index c) = size tm /\
  forall n, (n < size tm)%N -> nth 0%N (cs_obsid c) (nth 0%N (data_index c) n) = n /\
                              nth 0%N (cs_stateid c) (nth 0%N (data_index c) n) = 1%N.
Proof. exact data_order_coords. Qed.
Print Assumptions C23_order.

Example C23_ex : forall i, (i < size [:: 2; 4; 0; 1])%N -> 0 <= nth 0 [:: 2; 4; 0; 1] i.
Proof. exact X_int_len. Qed.
