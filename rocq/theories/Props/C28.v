(** C28: the order of the exposures does not matter. *)
From Coq Require Import Reals String.
From mathcomp Require Import all_ssreflect all_algebra.
From Verif.Prelude Require Import Rstruct Psd.
From Verif.Spec Require Import Expm Gp Lti WfKernel Cov CovOf LogNormal Data IntCov WfIntegrated Exposures Smoothable.
From Verif.Model Require Import Array Jax Ssm Sequential Parallel BaseKernels IntegratedKernels Kernel
  Integrated Frontend SequentialOps Gp.
From Verif.Proofs Require Import KernelThms IntegratedThms FitInt IntOrder IntThms IntExample FitIntCond IntCondThms IntCondExample IntNarrow IntNarrowThms.
Import GRing.Theory.
Local Open Scope R_scope.

(** Ties are allowed: the solver sorts the states, ends before starts. *)

Theorem C28_log_probability : forall k t dl d y inst idx mean sa g g',
  perm_eq idx (iota 0 (size t)) -> wf_integrated k ->
  valid_exposures (instruments k) (CTriple t dl inst) (Some (Vector d)) y -> size d = size t ->
  exposure_steps_kept k (CTriple t dl inst) -> default_integrated_solver sa ->
  gaussian_process smolgp_ops k (CTriple t dl inst) (Some (Vector d)) mean sa = inr g ->
  gaussian_process smolgp_ops k
    (CTriple (map (nth 0 t) idx) (map (nth 0 dl) idx) (map (nth 0%N inst) idx))
    (Some (Vector (map (nth 0 d) idx))) mean sa = inr g' -> 
  gp_log_probability smolgp_ops g' (map (nth 0 y) idx) = gp_log_probability smolgp_ops g y.
Proof. exact (fun k t dl d y inst idx mean sa g g' p wf ve sd sk hs hg hg' => int_order_log_probability p wf ve sd sk hs hg hg'). Qed.
Print Assumptions C28_log_probability.

(** The conditioned mean and variances are permuted; hypotheses as in C25. *)

Theorem C28_condition : forall k t dl d y inst idx mean sa g g',
  perm_eq idx (iota 0 (size t)) -> wf_integrated k ->
  valid_exposures (instruments k) (CTriple t dl inst) (Some (Vector d)) y -> size d = size t ->
  exposure_steps_kept k (CTriple t dl inst) -> default_integrated_solver sa ->
  gaussian_process smolgp_ops k (CTriple t dl inst) (Some (Vector d)) mean sa = inr g ->
  gaussian_process smolgp_ops k
    (CTriple (map (nth 0 t) idx) (map (nth 0 dl) idx) (map (nth 0%N inst) idx))
    (Some (Vector (map (nth 0 d) idx))) mean sa = inr g' -> 
  noisy_integrated k -> smoothable (CTriple t dl inst) -> forall lp c lp' c',
  gp_condition smolgp_ops g y None None = inr (lp, c) ->
  gp_condition smolgp_ops g' (map (nth 0 y) idx) None None = inr (lp', c') ->
  lp' = lp /\ g_mean c' = map (nth 0 (g_mean c)) idx /\
  exists v v', [/\ g_var c = Some (Vector v), g_var c' = Some (Vector v') & v' = map (nth 0 v) idx].
Proof. exact (fun k t dl d y inst idx mean sa g g' p wf ve sd sk hs hg hg' nk so lp c lp' c' => int_order_condition p wf ve sd sk hs hg hg' nk so (lp:=lp) (c:=c) (lp':=lp') (c':=c')). Qed.
Print Assumptions C28_condition.

Example C28_ex : wf_integrated k_int /\ plain_integrated k_int /\
  valid_exposures (instruments k_int) X_int diag_int y_int /\ noisy_integrated k_int /\
  smoothable X_int /\ perm_eq idx_int (iota 0 (num_coords X_int)).
Proof.
exact (conj k_int_wf (conj k_int_plain (conj X_int_valid (conj k_int_noisy
  (conj X_int_smoothable idx_int_perm))))).
Qed.
