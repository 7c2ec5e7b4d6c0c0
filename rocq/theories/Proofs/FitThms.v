(** User-level statements about the front end with the sequential solver. *)
From Coq Require Import Reals String Lra.
From mathcomp Require Import all_ssreflect all_algebra.
From Verif.Prelude Require Import Rstruct Psd.
From Verif.Spec Require Import Gp Markov Lti WfKernel LogNormal Data.
From Verif.Model Require Import Array Jax Ssm Sequential BaseKernels Kernel Integrated Frontend
  SequentialOps Gp.
From Verif.Proofs Require Import StateCov SeqExact SeqIdeal SeqMore SeqGp SeqLinear GpExt Lti KernelLti
  Evaluate KernelThms Names Rename Fit FitAny.
Set Implicit Arguments.
Unset Strict Implicit.
Unset Printing Implicit Defensive.
Import Order.TTheory GRing.Theory Num.Theory.

Section Thms.
Variables (k : kernel) (X : coords) (diag : option farray) (mean : option (coord -> R)).
Variables (sa : solver_arg) (y : seq R) (kern : coord -> coord -> R) (g : gp).
Hypothesis wf : wf_kernel k.
Hypothesis co : const_obs k.
Hypothesis vd : valid_data X diag y.
Hypothesis kept : steps_kept k (times X).
Hypothesis hkern : forall X1 X2, kernel_evaluate false k X1 X2 = inr (kern X1 X2).
Hypothesis hsa : default_solver sa.
Hypothesis hg : gaussian_process smolgp_ops k X diag mean sa = inr g.
Let N := num_coords X.
Let nd := variances diag N.

Lemma gE : exists k', assign_unique_kernel_names k = inr k' /\ g = fitted k X diag mean k'.
Proof. exact: (gaussian_process_inr hsa (vd_d vd) (wf_not_integrated wf) hg). Qed.

Lemma thm_log_probability :
  gp_log_probability smolgp_ops g y = inr (Fin (log_normal (CT 0) kern (coord_list X) nd y)).
Proof.
have [k' [e ->]] := gE.
rewrite any_log_probability ?(no_raise hkern) //.
congr inr; exact: fit_log_prob.
Qed.

Variables (lp : xreal) (c : gp).
Hypothesis hc : gp_condition smolgp_ops g y None None = inr (lp, c).

Lemma cE : [/\ N <> 1%N, lp = Fin (log_normal (CT 0) kern (coord_list X) nd y) &
  exists k'', denote k'' = denote k /\ exists k', denote k' = denote k /\
  c = @Gp k'' X (fun _ => 0%R) (at_data_mean k X diag y k' None)
     (Some (Vector (at_data_var k X diag y k' None))) nd (Solver StateSpaceSolver k X nd)
     (Some (states_ k X diag y))].
Proof.
have [k' [e eg]] := gE; move: hc; rewrite eg => h.
have [|_ n1 -> [k'' [e' ->]]] := any_condition_inr _ h.
  by rewrite (unique_integrated e) wf_not_integrated.
split=> //; first exact: fit_log_prob.
by exists k''; split; [rewrite (unique_denote e') (unique_denote e) | exists k'; rewrite (unique_denote e)].
Qed.

Lemma at_data_meanE k' : denote k' = denote k ->
  at_data_mean k X diag y k' None = [seq gp_mean (CT 0) kern (coord_list X) nd y x | x <- coord_list X].
Proof.
move=> ek; rewrite -(mkseq_map (CT 0)) size_coord_list; apply: eq_mkseq_in => i hi.
by rewrite obs_row_total //; apply: fit_mean.
Qed.
Lemma at_data_varE k' : denote k' = denote k ->
  at_data_var k X diag y k' None = [seq gp_var (CT 0) kern (coord_list X) nd x | x <- coord_list X].
Proof.
move=> ek; rewrite -(mkseq_map (CT 0)) size_coord_list; apply: eq_mkseq_in => i hi.
by rewrite obs_row_total //; apply: fit_var.
Qed.

Lemma thm_condition :
  [/\ lp = Fin (log_normal (CT 0) kern (coord_list X) nd y), g_X c = X,
      g_mean c = [seq gp_mean (CT 0) kern (coord_list X) nd y x | x <- coord_list X] &
      g_var c = Some (Vector [seq gp_var (CT 0) kern (coord_list X) nd x | x <- coord_list X])].
Proof.
have [_ -> [k'' [_ [k' [ek' ->]]]]] := cE; split=> //=; first exact: at_data_meanE.
by rewrite at_data_varE.
Qed.

Lemma thm_predict Xt y' :
  (forall x, List.In x (coord_list Xt) -> predict_kept k (times X) (coord_to_sortable x)) ->
  exists d, gp_predict smolgp_ops c (Some Xt) y' false None true = inr (existT prediction d (PMeanVar
      (squeeze [seq gp_mean (CT 0) kern (coord_list X) nd y x | x <- coord_list Xt])
      (Some (squeeze [seq gp_var (CT 0) kern (coord_list X) nd x | x <- coord_list Xt])))).
Proof.
move=> hp; have [_ _ [k'' [ek'' [k' [ek' ->]]]]] := cE.
eexists; rewrite any_predict ?(no_raise hkern) //.
have inX i : (i < num_coords Xt)%N -> List.In (nth (CT 0) (coord_list Xt) i) (coord_list Xt).
  rewrite -size_coord_list; elim: (coord_list Xt) i => //= x l IH [|i] hi; first by left.
  by right; apply: IH.
congr (inr (existT _ _ (PMeanVar (squeeze _) (Some (squeeze _))))).
- rewrite -(mkseq_map (CT 0)) size_coord_list; apply: eq_mkseq_in => i hi.
  rewrite obs_row_total // /at_test -coord_nth //.
  exact: (fit_point_mean wf co vd kept hkern true (hp _ (inX _ hi))).
- rewrite -(mkseq_map (CT 0)) size_coord_list; apply: eq_mkseq_in => i hi.
  rewrite obs_row_total // /at_test -coord_nth //.
  exact: (fit_point_var wf co vd kept hkern true (hp _ (inX _ hi))).
Qed.
End Thms.
