(** C25: integrated conditioning is exact. *)
From Coq Require Import Reals String.
From mathcomp Require Import all_ssreflect all_algebra.
From Verif.Prelude Require Import Rstruct Psd.
From Verif.Spec Require Import Expm Gp Lti WfKernel Cov CovOf LogNormal Data IntCov WfIntegrated Exposures Smoothable FirstOpen.
From Verif.Model Require Import Array Jax Ssm Sequential Parallel BaseKernels IntegratedKernels Kernel
  Integrated Frontend SequentialOps Gp.
From Verif.Proofs Require Import KernelThms IntegratedThms FitInt IntOrder IntThms IntExample FitIntCond IntCondThms IntCondExample IntNarrow IntNarrowThms IntLastRefute.
Import GRing.Theory.
Local Open Scope R_scope.

(** As C24, for exposures no two of which begin at the same time and the last of which does not
    end before another begins ([smoothable]), and without IntegratedCosine ([noisy_integrated]). *)

Theorem C25_condition : forall k b X diag mean sa y g lp c, wf_integrated k -> base_kernel k = Some b ->
  valid_exposures (instruments k) X diag y -> exposure_steps_kept k X ->
  noisy_integrated k -> smoothable X -> default_integrated_solver sa ->
  gaussian_process smolgp_ops k X diag mean sa = inr g ->
  gp_condition smolgp_ops g y None None = inr (lp, c) ->
  let nd := variances diag (num_coords X) in
  [/\ lp = Fin (log_normal (CT 0) (integrated_cov b) (coord_list X) nd y), g_X c = X,
      g_mean c = [seq gp_mean (CT 0) (integrated_cov b) (coord_list X) nd y x | x <- coord_list X] &
      g_var c = Some (Vector
        [seq gp_var (CT 0) (integrated_cov b) (coord_list X) nd x | x <- coord_list X])].
Proof. exact (fun k b X diag mean sa y g lp c wf eb ve sk nk so hs hg => int_condition wf eb ve sk nk so hs hg (lp:=lp) (c:=c)). Qed.
Print Assumptions C25_condition.

(** It returns for every number of exposures but one. *)

Theorem C25_defined : forall k X diag mean sa y g, wf_integrated k ->
  valid_exposures (instruments k) X diag y -> default_integrated_solver sa ->
  gaussian_process smolgp_ops k X diag mean sa = inr g -> names_ok k ->
  num_coords X <> 1%N -> exists lp c, gp_condition smolgp_ops g y None None = inr (lp, c).
Proof. exact (fun k X diag mean sa y g wf ve hs hg => int_condition_defined wf ve hs hg). Qed.
Print Assumptions C25_defined.

(** With IntegratedCosine the smoother solves with a singular matrix (tied starts: see C43). *)

Theorem C25_singular : forall k X diag mean sa y g r, wf_integrated k ->
  valid_exposures (instruments k) X diag y -> exposure_steps_kept k X -> default_integrated_solver sa ->
  gaussian_process smolgp_ops k X diag mean sa = inr g ->
  so_condition (smolgp_ops (sv_kind (g_solver g))) (g_solver g) y true = inr r -> 
  ~ noisy_integrated k -> num_coords X <> 1%N -> exists q, (q.+1 < (num_coords X).*2)%N /\ nth 0%R (r_Pp r) q.+1 \notin unitmx.
Proof. exact (fun k X diag mean sa y g r wf ve sk hs hg hr => quiet_singular wf ve sk hs hg hr). Qed.
Print Assumptions C25_singular.

Theorem C25_cosine_refuted : exists k X diag y g r q,
  [/\ wf_integrated k, smoothable X, plain_integrated k &
      valid_exposures (instruments k) X diag y] /\
  gaussian_process smolgp_ops k X diag None NoSolver = inr g /\
  so_condition (smolgp_ops (sv_kind (g_solver g))) (g_solver g) y true = inr r /\
  (q.+1 < (num_coords X).*2)%N /\ nth 0%R (r_Pp r) q.+1 \notin unitmx.
Proof. exact quiet_refuted. Qed.
Print Assumptions C25_cosine_refuted.

(** When the last exposure has length 0 its start is the last state (not [smoothable]); the reset
    made there is passed back by the smoother, and the mean is wrong though every solve is regular. *)

Theorem C25_zero_last_refuted : exists k b X diag y g r lp c,
  [/\ wf_integrated k, base_kernel k = Some b, plain_integrated k /\ noisy_integrated k, distinct_begins X &
      valid_exposures (instruments k) X diag y] /\
  gaussian_process smolgp_ops k X diag None NoSolver = inr g /\
  so_condition (smolgp_ops (sv_kind (g_solver g))) (g_solver g) y true = inr r /\
  (forall q, (q < (num_coords X).*2)%N -> nth 0%R (r_Pp r) q \in unitmx) /\
  gp_condition smolgp_ops g y None None = inr (lp, c) /\
  g_mean c <> [seq gp_mean (CT 0) (integrated_cov b) (coord_list X) (variances diag (num_coords X)) y x
                 | x <- coord_list X].
Proof. exact last_refuted. Qed.
Print Assumptions C25_zero_last_refuted.

Example C25_ex : wf_integrated k_int /\ base_kernel k_int = Some b_int /\ plain_integrated k_int /\
  valid_exposures (instruments k_int) X_int diag_int y_int /\ names_ok k_int /\
  default_integrated_solver NoSolver /\ noisy_integrated k_int /\ smoothable X_int /\
  num_coords X_int <> 1%N.
Proof.
exact (conj k_int_wf (conj k_int_base (conj k_int_plain (conj X_int_valid
  (conj k_int_names (conj (or_introl Logic.eq_refl) (conj k_int_noisy
  (conj X_int_smoothable X_int_N)))))))).
Qed.
