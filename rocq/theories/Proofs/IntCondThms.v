(** User-level statements about conditioning with the integrated solver. *)
From Coq Require Import Reals String Lra.
From mathcomp Require Import all_ssreflect all_algebra.
From Verif.Prelude Require Import Rstruct Psd.
From Verif.Spec Require Import Gp WfKernel CovOf LogNormal Data IntCov WfIntegrated Exposures Smoothable.
From Verif.Model Require Import Array Jax Ssm Sequential BaseKernels Kernel Integrated Frontend
  SequentialOps Gp.
From Verif.Proofs Require Import GpExt KernelThms Evaluate Names Rename Fit FitAny FitThms FitRefute IntBook LagInt
  WindowCov WindowKernel IntGram FitInt IntThms FitIntCond.
Set Implicit Arguments.
Unset Strict Implicit.
Unset Printing Implicit Defensive.
Import Order.TTheory GRing.Theory Num.Theory.

Section Thms.
Variables (k b : kernel) (X : coords) (diag : option farray) (y : seq R).
Hypothesis wf : wf_integrated k.
Hypothesis eb : base_kernel k = Some b.
Hypothesis ve : valid_exposures (instruments k) X diag y.
Hypothesis sk : exposure_steps_kept k X.
Hypothesis nk : noisy_integrated k.
Hypothesis so : smoothable X.
Variables (mean : option (coord -> R)) (sa : solver_arg) (g : gp).
Hypothesis hsa : default_integrated_solver sa.
Hypothesis hg : gaussian_process smolgp_ops k X diag mean sa = inr g.
Let nd := variances diag (num_coords X).
Let kern := integrated_cov b.

Lemma int_condition lp c : gp_condition smolgp_ops g y None None = inr (lp, c) ->
  [/\ lp = Fin (log_normal (CT 0) kern (coord_list X) nd y), g_X c = X,
      g_mean c = [seq gp_mean (CT 0) kern (coord_list X) nd y x | x <- coord_list X] &
      g_var c = Some (Vector [seq gp_var (CT 0) kern (coord_list X) nd x | x <- coord_list X])].
Proof.
have [tm [dl [inst e]]] := triple ve; rewrite /nd; move: ve sk so hg; rewrite e => ve' sk' so' hg'.
exact: (thm_int_condition wf eb ve' sk' hsa hg' nk so').
Qed.
End Thms.

Lemma int_condition_defined k X diag y mean sa g : wf_integrated k ->
  valid_exposures (instruments k) X diag y -> default_integrated_solver sa ->
  gaussian_process smolgp_ops k X diag mean sa = inr g -> names_ok k ->
  num_coords X <> 1%N -> exists lp c, gp_condition smolgp_ops g y None None = inr (lp, c).
Proof.
move=> wf ve; have [tm [dl [inst e]]] := triple ve; subst X => hsa hg.
exact: (thm_int_condition_defined wf ve hsa hg).
Qed.

(** ** Order *)
Section Perm.
Variables (T : Type) (x0 : T) (kern : T -> T -> R) (xs : seq T) (d y : seq R) (idx : seq nat).
Hypothesis pidx : perm_eq idx (iota 0 (size xs)).
Hypothesis det0 : gp_det x0 kern xs d <> 0%R.
Let xs' := map (nth x0 xs) idx.
Let d' := map (nth 0%R d) idx.
Let y' := map (nth 0%R y) idx.

Lemma gp_mean_perm x : gp_mean x0 kern xs' d' y' x = gp_mean x0 kern xs d y x.
Proof.
have [s hs] := idx_perm pidx.
have sz : size idx = size xs by rewrite (perm_size pidx) size_iota.
rewrite !gp_meanE /xs' size_map sz; apply: (@gpm_perm [realFieldType of R] _ s).
- by move=> i j; rewrite !(nth_map 0%N) ?sz // !hs.
- by move=> j; rewrite (nth_map 0%N) ?sz // hs.
- by move=> j; rewrite (nth_map 0%N) ?sz // hs.
- by move=> j; rewrite (nth_map 0%N) ?sz // hs.
- by rewrite unitmxE unitfE; apply/eqP.
Qed.
Lemma gp_var_perm x : gp_var x0 kern xs' d' x = gp_var x0 kern xs d x.
Proof.
have [s hs] := idx_perm pidx.
have sz : size idx = size xs by rewrite (perm_size pidx) size_iota.
rewrite !gp_varE /xs' size_map sz; apply: (@gpv_perm [realFieldType of R] _ s).
- by move=> i j; rewrite !(nth_map 0%N) ?sz // !hs.
- by move=> j; rewrite (nth_map 0%N) ?sz // hs.
- by move=> j; rewrite (nth_map 0%N) ?sz // hs.
- by rewrite unitmxE unitfE; apply/eqP.
Qed.
End Perm.

Section Order.
Variables (k b : kernel) (t dl d y : seq R) (inst idx : seq nat) (mean : option (coord -> R)).
Variables (sa : solver_arg) (g g' : gp).
Let X := CTriple t dl inst.
Let X' := CTriple (map (nth 0%R t) idx) (map (nth 0%R dl) idx) (map (nth 0%N inst) idx).
Let dg := Some (Vector d). Let dg' := Some (Vector (map (nth 0%R d) idx)).
Let y' := map (nth 0%R y) idx.
Hypothesis pidx : perm_eq idx (iota 0 (size t)).
Hypothesis wf : wf_integrated k.
Hypothesis ve : valid_exposures (instruments k) X dg y.
Hypothesis sd : size d = size t.
Hypothesis sk : exposure_steps_kept k X.
Hypothesis hsa : default_integrated_solver sa.
Hypothesis hg : gaussian_process smolgp_ops k X dg mean sa = inr g.
Hypothesis hg' : gaussian_process smolgp_ops k X' dg' mean sa = inr g'.

Lemma int_order_log_probability :
  gp_log_probability smolgp_ops g' y' = gp_log_probability smolgp_ops g y.
Proof. by have [b' eb] := wf_integrated_base wf; apply: (int_order pidx wf eb ve sd sk hsa hg hg'). Qed.

Hypothesis nk : noisy_integrated k.
Hypothesis so : smoothable X.

Lemma or_smoothable : smoothable X'.
Proof.
have sz := or_sz pidx.
have nE : num_coords X' = size t by rewrite /num_coords /= size_map sz.
split; rewrite nE.
  move=> i j hi hj; rewrite !(or_exp _ _ pidx) // => e.
  have li : (nth 0%N idx i < num_coords X)%N by apply: (or_lt pidx); rewrite sz.
  have lj : (nth 0%N idx j < num_coords X)%N by apply: (or_lt pidx); rewrite sz.
  have /eqP := sm_begins so li lj e.
  rewrite nth_uniq ?sz //; first by move/eqP.
  by rewrite (perm_uniq pidx) iota_uniq.
have [i [hi h]] := sm_last so; have [j hj e] := or_inv pidx hi.
exists j; split=> // j' hj'; rewrite !(or_exp _ _ pidx) // e; apply: h.
by apply: (or_lt pidx); rewrite sz.
Qed.

Lemma int_order_condition lp c lp' c' : gp_condition smolgp_ops g y None None = inr (lp, c) ->
  gp_condition smolgp_ops g' y' None None = inr (lp', c') ->
  lp' = lp /\ g_mean c' = map (nth 0%R (g_mean c)) idx /\
  exists v v', [/\ g_var c = Some (Vector v), g_var c' = Some (Vector v') & v' = map (nth 0%R v) idx].
Proof.
have [b' eb] := wf_integrated_base wf.
move=> /(int_condition wf eb ve sk nk so hsa hg)[-> _ -> ->].
move=> /(int_condition wf eb (or_valid pidx ve sd) (or_steps pidx sk) nk or_smoothable hsa hg')[-> _ -> ->].
rewrite (or_log_normal pidx wf eb ve sd sk); split=> //.
have hd : gp_det (CT 0) (integrated_cov b') (coord_list X) d <> 0%R.
  by have := fi_det_neq0 wf eb ve sk; rewrite varsE.
have pi : perm_eq idx (iota 0 (size (coord_list X))) by rewrite size_coord_list.
have nE : num_coords X' = size t by rewrite /num_coords /= size_map (or_sz pidx).
rewrite -/X -/X' -/dg -/dg' !varsE ?nE ?size_map ?(or_sz pidx) //.
rewrite (or_coords dl inst pidx) -/X.
split.
  rewrite -map_comp; apply/eq_in_map => i hi /=.
  have lt : (i < size (coord_list X))%N by move: hi; rewrite (perm_mem pi) mem_iota add0n.
  by rewrite (nth_map (CT 0)) // gp_mean_perm.
do 2!eexists; split; [by []|by []|].
rewrite -map_comp; apply/eq_in_map => i hi /=.
have lt : (i < size (coord_list X))%N by move: hi; rewrite (perm_mem pi) mem_iota add0n.
by rewrite (nth_map (CT 0)) // gp_var_perm.
Qed.
End Order.
