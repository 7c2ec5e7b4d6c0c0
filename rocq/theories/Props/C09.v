(** C09: the posterior mean is linear in the data and the variances ignore it. *)
From Coq Require Import Reals String.
From mathcomp Require Import all_ssreflect all_algebra.
From Verif.Prelude Require Import Rstruct Psd.
From Verif.Spec Require Import Expm Gp Lti WfKernel Cov CovOf LogNormal Data.
From Verif.Model Require Import Array Jax Ssm Sequential Parallel BaseKernels IntegratedKernels Kernel
  Integrated Frontend SequentialOps Gp.
From Verif.Proofs Require Import KernelThms FitThms FitMore FitLin FrontThms FitExample FitRefute FrontDefined FrontProps.
Import GRing.Theory.
Local Open Scope R_scope.

Theorem C09_condition_linear : forall k X diag mean sa g a y y1 y2 comp lp lp1 lp2 c c1 c2,
  instantaneous k -> default_solver sa ->
  size (variances diag (num_coords X)) = num_coords X ->
  gaussian_process smolgp_ops k X diag mean sa = inr g ->
  (forall i, (i < num_coords X)%N -> nth 0 y i = a * nth 0 y1 i + nth 0 y2 i) ->
  gp_condition smolgp_ops g y None comp = inr (lp, c) ->
  gp_condition smolgp_ops g y1 None comp = inr (lp1, c1) ->
  gp_condition smolgp_ops g y2 None comp = inr (lp2, c2) ->
  (forall i, (i < num_coords X)%N ->
     nth 0 (g_mean c) i = a * nth 0 (g_mean c1) i + nth 0 (g_mean c2) i) /\
  g_var c1 = g_var c /\ g_var c2 = g_var c.
Proof. exact (fun k X diag mean sa g a y y1 y2 comp lp lp1 lp2 c c1 c2 ni hs hd hg hy hc hc1 hc2 =>
  conj (thm_mean_linear (inst_not_integrated ni) hs hd hg hy hc hc1 hc2)
       (thm_var_same (inst_not_integrated ni) hs hd hg hc hc1 hc2)). Qed.
Print Assumptions C09_condition_linear.

Theorem C09_predict_linear : forall k X diag mean sa g a y y1 y2 comp lp lp1 lp2 c c1 c2,
  instantaneous k -> default_solver sa ->
  size (variances diag (num_coords X)) = num_coords X ->
  gaussian_process smolgp_ops k X diag mean sa = inr g ->
  (forall i, (i < num_coords X)%N -> nth 0 y i = a * nth 0 y1 i + nth 0 y2 i) ->
  gp_condition smolgp_ops g y None comp = inr (lp, c) ->
  gp_condition smolgp_ops g y1 None comp = inr (lp1, c1) ->
  gp_condition smolgp_ops g y2 None comp = inr (lp2, c2) ->
  forall Xt y' cp, (0 < num_coords X)%N -> exists d mu mu1 mu2 va,
  [/\ gp_predict smolgp_ops c (Some Xt) y' false cp true = inr (existT prediction d (PMeanVar (squeeze mu) va)),
      gp_predict smolgp_ops c1 (Some Xt) y' false cp true = inr (existT prediction d (PMeanVar (squeeze mu1) va)),
      gp_predict smolgp_ops c2 (Some Xt) y' false cp true = inr (existT prediction d (PMeanVar (squeeze mu2) va)),
      [/\ size mu = num_coords Xt, size mu1 = num_coords Xt & size mu2 = num_coords Xt] &
      forall i, (i < num_coords Xt)%N -> nth 0 mu i = a * nth 0 mu1 i + nth 0 mu2 i].
Proof. exact (fun k X diag mean sa g a y y1 y2 comp lp lp1 lp2 c c1 c2 ni hs hd hg hy hc hc1 hc2 Xt y' cp N0 =>
  thm_predict_linear (inst_not_integrated ni) hs hd hg hy hc hc1 hc2 Xt y' cp N0). Qed.
Print Assumptions C09_predict_linear.

Theorem C09_covariances : forall k X diag mean sa g z z' b r r',
  instantaneous k -> default_solver sa ->
  size (variances diag (num_coords X)) = num_coords X ->
  gaussian_process smolgp_ops k X diag mean sa = inr g -> (0 < num_coords X)%N ->
  so_condition (smolgp_ops (sv_kind (g_solver g))) (g_solver g) z b = inr r ->
  so_condition (smolgp_ops (sv_kind (g_solver g))) (g_solver g) z' b = inr r' ->
  [/\ r_Pp r = r_Pp r', r_Pf r = r_Pf r' & r_Ps r = r_Ps r'].
Proof. exact (fun k X diag mean sa g z z' b r r' ni hs hd hg => thm_cov_same (inst_not_integrated ni) hs hd hg (z := z) (z' := z') (b := b) (r := r) (r' := r')). Qed.
Print Assumptions C09_covariances.

Example C09_ex : instantaneous k_kept /\
  size (variances diag_ex (num_coords X_ex)) = num_coords X_ex /\ (0 < num_coords X_ex)%N /\
  exists g, gaussian_process smolgp_ops k_kept X_ex diag_ex None NoSolver = inr g /\
  forall y, size y = 4%N -> exists lp c, gp_condition smolgp_ops g y None None = inr (lp, c).
Proof. exact lin_example. Qed.
