(** C05: reported variances are sane. *)
From Coq Require Import Reals String.
From mathcomp Require Import all_ssreflect all_algebra.
From Verif.Prelude Require Import Rstruct Psd.
From Verif.Spec Require Import Expm Gp Lti WfKernel Cov CovOf LogNormal Data.
From Verif.Model Require Import Array Jax Ssm Sequential Parallel BaseKernels IntegratedKernels Kernel
  Integrated Frontend SequentialOps Gp.
From Verif.Proofs Require Import KernelThms FitThms FitMore FitLin FrontThms FitExample FitRefute FrontDefined FrontProps.
Import GRing.Theory.
Local Open Scope R_scope.

Theorem C05_condition : forall k X diag mean sa y kern g lp c,
  wf_kernel k -> const_obs k -> valid_data X diag y -> steps_kept k (times X) ->
  (forall X1 X2, kernel_evaluate false k X1 X2 = inr (kern X1 X2)) -> default_solver sa ->
  gaussian_process smolgp_ops k X diag mean sa = inr g ->
  gp_condition smolgp_ops g y None None = inr (lp, c) ->
  exists v, g_var c = Some (Vector v) /\ size v = num_coords X /\
  forall i, (i < num_coords X)%N -> let x := nth (CT 0) (coord_list X) i in
    0 <= nth 0 v i /\ nth 0 v i <= kern x x.
Proof. exact (fun k X diag mean sa y kern g lp c wf co vd kept hk hs hg hc => thm_var_cond wf co vd kept hk hs hg hc). Qed.
Print Assumptions C05_condition.

Theorem C05_predict : forall k X diag mean sa y kern g lp c,
  wf_kernel k -> const_obs k -> valid_data X diag y -> steps_kept k (times X) ->
  (forall X1 X2, kernel_evaluate false k X1 X2 = inr (kern X1 X2)) -> default_solver sa ->
  gaussian_process smolgp_ops k X diag mean sa = inr g ->
  gp_condition smolgp_ops g y None None = inr (lp, c) ->
  forall Xt y', (forall x, List.In x (coord_list Xt) -> predict_kept k (times X) (coord_to_sortable x)) ->
  exists n mu v, gp_predict smolgp_ops c (Some Xt) y' false None true
      = inr (existT prediction n (PMeanVar mu (Some (squeeze v)))) /\ size v = num_coords Xt /\
  forall i, (i < num_coords Xt)%N -> let x := nth (CT 0) (coord_list Xt) i in
    0 <= nth 0 v i /\ nth 0 v i <= kern x x.
Proof. exact (fun k X diag mean sa y kern g lp c wf co vd kept hk hs hg hc Xt y' hp =>
  thm_predict_var wf co vd kept hk hs hg hc y' hp). Qed.
Print Assumptions C05_predict.

Theorem C05_order : forall k X diag mean sa y kern g,
  wf_kernel k -> const_obs k -> valid_data X diag y -> steps_kept k (times X) ->
  (forall X1 X2, kernel_evaluate false k X1 X2 = inr (kern X1 X2)) -> default_solver sa ->
  gaussian_process smolgp_ops k X diag mean sa = inr g ->
  forall b r, so_condition (smolgp_ops (sv_kind (g_solver g))) (g_solver g) y b = inr r ->
  forall i h, (i < num_coords X)%N ->
    proj_var h (nth 0%R (r_Ps r) i) <= proj_var h (nth 0%R (r_Pf r) i) /\
    proj_var h (nth 0%R (r_Pf r) i) <= proj_var h (nth 0%R (r_Pp r) i).
Proof. exact (fun k X diag mean sa y kern g wf co vd kept hk hs hg b r => thm_order wf vd kept hk hs hg (b := b) (r := r)). Qed.
Print Assumptions C05_order.

(** The hypotheses hold together for a sum of an SHO and a product, with four data of
    which two are at the same time. *)
Example C05_ex : wf_kernel k_kept /\ const_obs k_kept /\ names_ok k_kept /\ valid_data X_ex diag_ex y_ex /\
  steps_kept k_kept (times X_ex) /\ default_solver NoSolver /\
  exists kern g lp c, (forall X1 X2, kernel_evaluate false k_kept X1 X2 = inr (kern X1 X2)) /\
    gaussian_process smolgp_ops k_kept X_ex diag_ex None NoSolver = inr g /\
    gp_condition smolgp_ops g y_ex None None = inr (lp, c).
Proof.
exact (conj k_kept_wf (conj k_kept_const (conj k_kept_names (conj X_ex_valid
  (conj X_ex_kept (conj (or_introl Logic.eq_refl) fit_example)))))).
Qed.
