(** Prediction at times, with the sequential integrated solver. *)
From Coq Require Import Reals String Lra.
From mathcomp Require Import all_ssreflect all_algebra.
From Verif.Prelude Require Import Rstruct Psd.
From Verif.Spec Require Import Gp WfKernel CovOf LogNormal Data IntCov WfIntegrated Exposures Smoothable TestTimes.
From Verif.Model Require Import Array Jax Ssm Sequential BaseKernels Kernel Integrated Frontend
  SequentialOps Gp.
From Verif.Proofs Require Import GpExt Names Rename Fit FitAny FitInt IntOrder IntThms FitIntCond IntCondThms FitIntPred.
Set Implicit Arguments.
Unset Strict Implicit.
Unset Printing Implicit Defensive.
Import Order.TTheory GRing.Theory Num.Theory.

Section Predict.
Variables (kd : solver_kind) (k k' : kernel) (tm dl : seq R) (inst : seq nat) (nd : seq R).
Let X := CTriple tm dl inst.
Let s := Solver kd k X nd.
Let d := sdim_of s.
Variables (r : results d) (mu : seq R) (va : option farray).
Let cs := int_states tm dl inst r.
Let c := @Gp k' X (fun _ => 0%R) mu va nd s (Some cs).
Variables (Xt : coords) (pt : R -> 'cV[R]_d * 'M[R]_d).
Hypothesis hp : so_predict (smolgp_ops kd) Xt (cs_call cs) = inr (map pt (times Xt)).
Hypothesis ek : denote k' = denote k.

Lemma gp_predict_int y' rv : 
  gp_predict smolgp_ops c (Some Xt) y' false None rv
  = inr (existT prediction d
     (let m := squeeze (mkseq (fun i => proj_mean (mH (denote k) (nth (CT 0%R) (coord_list Xt) i)) (pt (nth 0%R (times Xt) i)).1) (num_coords Xt)) in
      let v := squeeze (mkseq (fun i => proj_var (mH (denote k) (nth (CT 0%R) (coord_list Xt) i)) (pt (nth 0%R (times Xt) i)).2) (num_coords Xt)) in
      if rv then PMeanVar m (Some v) else PMean m)).
Proof.
rewrite /gp_predict [g_states c]/= /gp_predict_conditioned.
rewrite [g_solver c]/= [sv_kind _]/= hp.
cbv beta iota delta [ebind].
have -> : mkseq (fun i => proj_mean (Frontend.obs_row d (g_kernel c) None (nth (CT 0%R) (coord_list Xt) i))
      (nth 0%R (unzip1 (map pt (times Xt))) i)) (size (coord_list Xt))
   = mkseq (fun i => proj_mean (mH (denote k) (nth (CT 0%R) (coord_list Xt) i)) (pt (nth 0%R (times Xt) i)).1) (num_coords Xt).
  rewrite size_coord_list; apply: eq_mkseq_in => i hi.
  by rewrite /unzip1 -map_comp (nth_map 0%R) //= (obs_row_total _ ek).
have -> : mkseq (fun i => proj_var (Frontend.obs_row d (g_kernel c) None (nth (CT 0%R) (coord_list Xt) i))
      (nth 0%R (unzip2 (map pt (times Xt))) i)) (size (coord_list Xt))
   = mkseq (fun i => proj_var (mH (denote k) (nth (CT 0%R) (coord_list Xt) i)) (pt (nth 0%R (times Xt) i)).2) (num_coords Xt).
  rewrite size_coord_list; apply: eq_mkseq_in => i hi.
  by rewrite /unzip2 -map_comp (nth_map 0%R) //= (obs_row_total _ ek).
by case: rv.
Qed.
End Predict.

Lemma int_so_predict k tm dl inst nd Xt (r : results (sdim_of (Solver IntegratedStateSpaceSolver k (CTriple tm dl inst) nd))) :
  transition_raises false k = None ->
  so_predict (smolgp_ops IntegratedStateSpaceSolver) Xt (cs_call (int_states tm dl inst r))
  = inr (map (@pr_point _ (to_ssm (denote k))
     (@Conditioned _ (md (denote k)) (@t_states [realFieldType of R] tm dl) (r_mp r) (r_Pp r) (r_mf r) (r_Pf r) (r_ms r) (r_Ps r) None))
     (times Xt)).
Proof. by move=> nr; rewrite /= /seq_solver_predict /= /traced_transition /= nr. Qed.

Section Call.
Variables (k b : kernel) (tm dl : seq R) (inst : seq nat) (diag : option farray) (y : seq R).
Let X := CTriple tm dl inst.
Let N := size tm.
Let nd := variances diag N.
Let m := denote k.
Hypothesis wf : wf_integrated k.
Hypothesis eb : base_kernel k = Some b.
Hypothesis ve : valid_exposures (instruments k) X diag y.
Hypothesis sk : exposure_steps_kept k X.
Hypothesis nk : noisy_integrated k.
Hypothesis so : smoothable X.
Let kern := integrated_cov b.
Let s := Solver IntegratedStateSpaceSolver k X nd.
Let r := results_of (int_state_coords s) (int_run s y true).
Let pt := @pr_point _ (to_ssm (denote k))
     (@Conditioned _ (md (denote k)) (@t_states [realFieldType of R] tm dl) (r_mp r) (r_Pp r) (r_mf r) (r_Pf r) (r_ms r) (r_Ps r) None).

Lemma pt_mean u : test_kept k X u ->
  proj_mean (mH m (CT u)) (pt u).1 = gp_mean (CT 0) kern (coord_list X) nd y (CT u).
Proof.
move=> tk; have [h _] : (mH m (CT u) *m (pt u).1 = _ /\ _)%R := fp_point wf eb ve sk nk so tk.
rewrite /proj_mean h.
rewrite gp_meanE size_coord_list.
set Xi := fun i => CX (nth 0%R tm i) (nth 0%R dl i) (nth 0%N inst i).
transitivity (gpm N (fun a c => kern (Xi a) (Xi c)) (fun c => kern (CT u) (Xi c)) nd y); first by [].
by apply: gpm_ext => [a c ha hc|c hc]; rewrite !nth_exposure.
Qed.
Lemma pt_var u : test_kept k X u ->
  proj_var (mH m (CT u)) (pt u).2 = gp_var (CT 0) kern (coord_list X) nd (CT u).
Proof.
move=> tk; have [_ h] : (_ /\ mH m (CT u) *m (pt u).2 *m (mH m (CT u))^T = _)%R := fp_point wf eb ve sk nk so tk.
rewrite /proj_var h.
rewrite gp_varE size_coord_list.
set Xi := fun i => CX (nth 0%R tm i) (nth 0%R dl i) (nth 0%N inst i).
transitivity (gpv N (fun a c => kern (Xi a) (Xi c)) (kern (CT u) (CT u)) (fun c => kern (CT u) (Xi c)) nd); first by [].
by apply: gpv_ext => [a c ha hc||c hc] //; rewrite !nth_exposure.
Qed.

Variables (mean : option (coord -> R)) (sa : solver_arg) (g : gp).
Hypothesis hsa : default_integrated_solver sa.
Hypothesis hg : gaussian_process smolgp_ops k X diag mean sa = inr g.

Lemma thm_int_predict lp c ts y' : gp_condition smolgp_ops g y None None = inr (lp, c) ->
  (forall u, List.In u ts -> test_kept k X u) ->
  exists d, gp_predict smolgp_ops c (Some (CArray ts)) y' false None true = inr (existT prediction d (PMeanVar
      (squeeze [seq gp_mean (CT 0) kern (coord_list X) nd y (CT u) | u <- ts])
      (Some (squeeze [seq gp_var (CT 0) kern (coord_list X) nd (CT u) | u <- ts])))).
Proof.
move=> /(thm_int_condition_shape wf eb ve sk hsa hg)[_ _ [k'' [e ->]]] tk.
eexists; rewrite (gp_predict_int _ _ (@int_so_predict k tm dl inst nd (CArray ts) r (wf_integrated_raises wf)) e).
have inX i : (i < size ts)%N -> List.In (nth 0%R ts i) ts.
  elim: (ts) i => //= x l IH [|i] hi; first by left.
  by right; apply: IH.
have hn i : (i < size ts)%N -> nth (CT 0) (coord_list (CArray ts)) i = CT (nth 0%R ts i).
  by move=> hi; rewrite /= (nth_map 0%R).
have mk (f : R -> R) : [seq f u | u <- ts] = mkseq (fun i => f (nth 0%R ts i)) (size ts).
  by rewrite -{1}(mkseq_nth 0%R ts) -map_comp.
congr (inr (existT _ _ (PMeanVar (squeeze _) (Some (squeeze _))))).
- rewrite mk; apply: eq_mkseq_in => i hi.
  by rewrite hn // pt_mean //; apply: tk; apply: inX.
- rewrite mk; apply: eq_mkseq_in => i hi.
  by rewrite hn // pt_var //; apply: tk; apply: inX.
Qed.
End Call.

Lemma int_predict k b X diag mean sa y g lp c ts y' : wf_integrated k -> base_kernel k = Some b ->
  valid_exposures (instruments k) X diag y -> exposure_steps_kept k X ->
  noisy_integrated k -> smoothable X -> default_integrated_solver sa ->
  gaussian_process smolgp_ops k X diag mean sa = inr g ->
  gp_condition smolgp_ops g y None None = inr (lp, c) ->
  (forall u, List.In u ts -> test_kept k X u) ->
  let nd := variances diag (num_coords X) in
  exists d, gp_predict smolgp_ops c (Some (CArray ts)) y' false None true = inr (existT prediction d (PMeanVar
      (squeeze [seq gp_mean (CT 0) (integrated_cov b) (coord_list X) nd y (CT u) | u <- ts])
      (Some (squeeze [seq gp_var (CT 0) (integrated_cov b) (coord_list X) nd (CT u) | u <- ts])))).
Proof.
move=> wf eb ve; have [tm [dl [inst e]]] := triple ve; subst X => sk nk so hsa hg hc tk.
exact: (thm_int_predict wf eb ve sk nk so hsa hg y' hc tk).
Qed.

Lemma plain_test_kept k X u : wf_integrated k -> plain_integrated k -> test_kept k X u.
Proof. by move=> wf pl v _ _; apply: plain_kept. Qed.
