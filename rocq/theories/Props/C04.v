(** C04: no singular solve and no -inf sentinel on valid input. *)
From Coq Require Import Reals String.
From mathcomp Require Import all_ssreflect all_algebra.
From Verif.Prelude Require Import Rstruct Psd.
From Verif.Spec Require Import Expm Gp Lti WfKernel Cov CovOf LogNormal Data.
From Verif.Model Require Import Array Jax Ssm Sequential Parallel BaseKernels IntegratedKernels Kernel
  Integrated Frontend SequentialOps Gp.
From Verif.Proofs Require Import KernelThms FitThms FitMore FitLin FrontThms FitExample FitRefute FrontDefined FrontProps.
Import GRing.Theory.
Local Open Scope R_scope.

Theorem C04_guards : forall k X diag mean sa y kern g,
  wf_kernel k -> const_obs k -> valid_data X diag y -> steps_kept k (times X) ->
  (forall X1 X2, kernel_evaluate false k X1 X2 = inr (kern X1 X2)) -> default_solver sa ->
  gaussian_process smolgp_ops k X diag mean sa = inr g ->
  forall b r, so_condition (smolgp_ops (sv_kind (g_solver g))) (g_solver g) y b = inr r ->
  (forall i, (i < num_coords X)%N -> pdmx (nth 0%R (r_Pp r) i) /\ nth 0%R (r_Pp r) i \in unitmx) /\
  (b -> exists v S_, r_vS r = Some (v, S_) /\ size S_ = num_coords X /\
     forall i, (i < num_coords X)%N -> 0 < (nth 0%R S_ i : 'M[R]_1) 0%R 0%R).
Proof. exact (fun k X diag mean sa y kern g wf co vd kept hk hs hg b r => thm_guards wf vd kept hk hs hg (b := b) (r := r)). Qed.
Print Assumptions C04_guards.

(** The smoother and the predictor invert P_pred only, so the guards above are all of them. *)

Theorem C04_finite : forall k X diag mean sa y kern g,
  wf_kernel k -> const_obs k -> valid_data X diag y -> steps_kept k (times X) ->
  (forall X1 X2, kernel_evaluate false k X1 X2 = inr (kern X1 X2)) -> default_solver sa ->
  gaussian_process smolgp_ops k X diag mean sa = inr g ->
  exists l, gp_log_probability smolgp_ops g y = inr (Fin l).
Proof. exact (fun k X diag mean sa y kern g wf co vd kept hk hs hg => ex_intro _ _ (thm_log_probability wf co vd kept hk hs hg)). Qed.
Print Assumptions C04_finite.

(** The hypotheses hold together for a sum of an SHO and a product, with four data of
    which two are at the same time. *)
Example C04_ex : wf_kernel k_kept /\ const_obs k_kept /\ names_ok k_kept /\ valid_data X_ex diag_ex y_ex /\
  steps_kept k_kept (times X_ex) /\ default_solver NoSolver /\
  exists kern g lp c, (forall X1 X2, kernel_evaluate false k_kept X1 X2 = inr (kern X1 X2)) /\
    gaussian_process smolgp_ops k_kept X_ex diag_ex None NoSolver = inr g /\
    gp_condition smolgp_ops g y_ex None None = inr (lp, c).
Proof.
exact (conj k_kept_wf (conj k_kept_const (conj k_kept_names (conj X_ex_valid
  (conj X_ex_kept (conj (or_introl Logic.eq_refl) fit_example)))))).
Qed.
