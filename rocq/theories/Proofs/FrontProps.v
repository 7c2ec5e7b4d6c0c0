(** Corollaries of the statements about the front end, as the properties quote them. *)
From Coq Require Import Reals String Lra.
From mathcomp Require Import all_ssreflect all_algebra.
From Verif.Prelude Require Import Rstruct Psd.
From Verif.Spec Require Import Expm Gp Lti WfKernel Cov CovOf LogNormal Data.
From Verif.Model Require Import Array Jax Ssm Sequential Parallel BaseKernels Kernel Integrated Frontend
  SequentialOps Gp.
From Verif.Proofs Require Import Evaluate KernelThms Names Rename Fit FitAny FitThms FitMore FitLin FrontThms
  FitExample FitRefute FrontDefined.
Set Implicit Arguments.
Unset Strict Implicit.
Unset Printing Implicit Defensive.
Import GRing.Theory.
Local Open Scope R_scope.

Lemma plain_kept k dt : plain_noise k -> noise_kept dt k.
Proof. by elim: k => //= k1 IH1 k2 IH2 [/IH1 ? /IH2 ?]. Qed.

Lemma inst_not_integrated k : instantaneous k -> gp_integrated k = false.
Proof.
move=> h; rewrite /gp_integrated.
have e : extract_leaf_kernels false k = summands k by elim: k {h} => //= k1 -> k2 ->.
rewrite e; move: h; rewrite /instantaneous; elim: (summands k) => //= a s IH h.
rewrite (negbTE (h a (or_introl erefl))) /=; apply: IH => k' hk'; apply: h; by right.
Qed.

Section Var.
Variables (k : kernel) (X : coords) (diag : option farray) (mean : option (coord -> R)) (sa : solver_arg).
Variables (y : seq R) (kern : coord -> coord -> R) (g : gp) (lp : xreal) (c : gp).
Hypothesis wf : wf_kernel k.
Hypothesis co : const_obs k.
Hypothesis vd : valid_data X diag y.
Hypothesis kept : steps_kept k (times X).
Hypothesis hk : forall X1 X2, kernel_evaluate false k X1 X2 = inr (kern X1 X2).
Hypothesis hs : default_solver sa.
Hypothesis hg : gaussian_process smolgp_ops k X diag mean sa = inr g.
Hypothesis hc : gp_condition smolgp_ops g y None None = inr (lp, c).

Lemma thm_predict_var Xt y' :
  (forall x, List.In x (coord_list Xt) -> predict_kept k (times X) (coord_to_sortable x)) ->
  exists n mu v, gp_predict smolgp_ops c (Some Xt) y' false None true
      = inr (existT prediction n (PMeanVar mu (Some (squeeze v)))) /\ size v = num_coords Xt /\
  forall i, (i < num_coords Xt)%N -> let x := nth (CT 0) (coord_list Xt) i in
    0 <= nth 0 v i /\ nth 0 v i <= kern x x.
Proof.
move=> hp; have [n e] := thm_predict wf co vd kept hk hs hg hc y' hp.
rewrite e; do 3!eexists; split; first reflexivity.
rewrite size_map size_coord_list; split=> // i hi.
rewrite (nth_map (CT 0)) ?size_coord_list //.
have /= := dense_var wf co vd hk (nth (CT 0) (coord_list Xt) i).
by move=> h; exact: h.
Qed.
End Var.

Lemma shift_defined k X diag mean sa dt g : const_obs k -> default_solver sa ->
  size (variances diag (num_coords X)) = num_coords X ->
  gaussian_process smolgp_ops k X diag mean sa = inr g ->
  exists g', gaussian_process smolgp_ops k (shift_coords dt X) diag mean sa = inr g'.
Proof.
move=> /const_obs_not_integrated ni hs hd.
rewrite !gaussian_processE ?num_shift //.
by case: assign_unique_kernel_names => //= k' _; eexists.
Qed.

Lemma lin_example : instantaneous k_kept /\
  size (variances diag_ex (num_coords X_ex)) = num_coords X_ex /\ (0 < num_coords X_ex)%N /\
  exists g, gaussian_process smolgp_ops k_kept X_ex diag_ex None NoSolver = inr g /\
  forall y, size y = 4%N -> exists lp c, gp_condition smolgp_ops g y None None = inr (lp, c).
Proof.
split; first by move=> k' [<-|[<-|[]]].
split; first exact: vd_d X_ex_valid.
split=> //.
have [kern hk] := kernel_evaluate_fun k_kept_no_constant.
have [g hg] := thm_defined None k_kept_wf X_ex_valid (or_introl erefl) k_kept_names.
exists g; split=> // y sy.
have vd : valid_data X_ex diag_ex y by case: X_ex_valid => *; split=> //; rewrite sy.
exact: (thm_condition_defined k_kept_wf vd hk (or_introl erefl) k_kept_names hg (ltac:(done))).
Qed.

(** A single datum. *)
Lemma single_refuted : exists k X diag y kern g, 
  wf_kernel k /\ const_obs k /\ names_ok k /\ valid_data X diag y /\ steps_kept k (times X) /\
  (forall X1 X2, kernel_evaluate false k X1 X2 = inr (kern X1 X2)) /\
  gaussian_process smolgp_ops k X diag None NoSolver = inr g /\
  exists e, gp_condition smolgp_ops g y None None = inl e.
Proof.
pose X := CArray [:: 0]; pose diag := Some (Scalar 1).
have vd : valid_data X diag [:: 1].
  split=> //=; first by move=> i j /andP[]; case: i j => [|i] [|j] //= _ _; lra.
  by case=> //= _; lra.
have kept : steps_kept k_kept (times X) by split; [exact: kept0 | case].
have [kern hk] := kernel_evaluate_fun k_kept_no_constant.
have [g hg] := thm_defined None k_kept_wf vd (or_introl erefl) k_kept_names.
exists k_kept, X, diag, [:: 1], kern, g.
refine (conj k_kept_wf (conj k_kept_const (conj k_kept_names (conj vd (conj kept (conj hk (conj hg _))))))).
exact: (thm_single k_kept_wf k_kept_const vd kept hk (or_introl erefl) hg).
Qed.

(** ** Kernels and solvers (C39) *)
Section Works.
Variables (k : kernel) (X : coords) (diag : option farray) (mean : option (coord -> R)) (y : seq R).
Hypothesis wf : wf_kernel k.
Hypothesis nok : names_ok k.
Hypothesis sd : size (variances diag (num_coords X)) = num_coords X.
Hypothesis N1 : num_coords X <> 1%N.
Hypothesis nc : no_constant k.

Lemma works_seq : exists g lp c,
  gaussian_process smolgp_ops k X diag mean (SolverClass StateSpaceSolver) = inr g /\
  gp_log_probability smolgp_ops g y = inr lp /\
  gp_condition smolgp_ops g y None None = inr (lp, c) /\
  forall Xt y', exists p, gp_predict smolgp_ops c (Some Xt) y' false None true = inr p.
Proof.
have h : StateSpaceSolver = StateSpaceSolver -> transition_raises false k = None
  by move=> _; apply: no_constant_raises.
have [g [lp [c [a [b [d e]]]]]] :=
  inst_works mean y (or_introl erefl : inst_kind StateSpaceSolver) wf nok sd N1 h
    (fun q => match q with end).
exists g, lp, c; do !split=> //; move=> Xt y'; exact: e.
Qed.

Lemma works_par : no_exp k -> md (denote k) <> 1%N -> is_tuple X = false -> exists g lp c,
  gaussian_process smolgp_ops k X diag mean (SolverClass ParallelStateSpaceSolver) = inr g /\
  gp_log_probability smolgp_ops g y = inr lp /\
  gp_condition smolgp_ops g y None None = inr (lp, c) /\
  forall Xt y', is_tuple Xt = false ->
    exists p, gp_predict smolgp_ops c (Some Xt) y' false None true = inr p.
Proof.
move=> ne d1 tX.
have [g [lp [c [a [b [d e]]]]]] :=
  inst_works mean y (or_intror erefl : inst_kind ParallelStateSpaceSolver) wf nok sd N1
    (fun q => match q with end)
    (fun _ => conj (no_exp_raises nc ne) d1).
by exists g, lp, c; do !split=> //; move=> Xt y' hX; exact: e.
Qed.
End Works.

Lemma constant_fails kd k X diag mean g y : inst_kind kd -> ~ no_constant k ->
  gaussian_process smolgp_ops k X diag mean (SolverClass kd) = inr g ->
  (exists e, gp_log_probability smolgp_ops g y = inl e) /\
  (exists e, gp_condition smolgp_ops g y None None = inl e).
Proof.
move=> hk nc hg; apply: (fails_kalman y hk hg); left.
have h b : transition_raises b k = None -> no_constant k.
  elim: (k) => //= k1 IH1 k2 IH2; by case e: (transition_raises _ k1) => [//|] /IH2 ?; split; auto.
by case: hk => -> /h.
Qed.
Lemma exp_fails k X diag mean g y : ~ no_exp k ->
  gaussian_process smolgp_ops k X diag mean (SolverClass ParallelStateSpaceSolver) = inr g ->
  (exists e, gp_log_probability smolgp_ops g y = inl e) /\
  (exists e, gp_condition smolgp_ops g y None None = inl e).
Proof.
move=> nc hg; apply: (fails_kalman _ _ hg); [by right|left].
have h : transition_raises true k = None -> no_exp k.
  elim: (k) => //= k1 IH1 k2 IH2; by case e: (transition_raises _ k1) => [//|] /IH2 ?; split; auto.
by move=> /h.
Qed.
Lemma dim1_fails k X diag mean g y : md (denote k) = 1%N ->
  gaussian_process smolgp_ops k X diag mean (SolverClass ParallelStateSpaceSolver) = inr g ->
  (exists e, gp_log_probability smolgp_ops g y = inl e) /\
  (exists e, gp_condition smolgp_ops g y None None = inl e).
Proof. by move=> d1 hg; apply: (fails_kalman _ _ hg); right. Qed.

Lemma kernels_fail : 
  (exists g, gaussian_process smolgp_ops (Constant 1 "c") X_ex diag_ex None (SolverClass StateSpaceSolver) = inr g /\
     exists e, gp_log_probability smolgp_ops g y_ex = inl e) /\
  (exists g, gaussian_process smolgp_ops (Exp 1 1 "e") X_ex diag_ex None (SolverClass ParallelStateSpaceSolver) = inr g /\
     exists e, gp_log_probability smolgp_ops g y_ex = inl e).
Proof.
have sd := vd_d X_ex_valid.
have nok k : summands k = [:: k] -> names_ok k by move=> e; left; rewrite e; split; [case|].
split.
  have [g [hg _]] := construct_inst (k := Constant 1 "c") None erefl (nok (Constant 1 "c") erefl) sd (or_introl erefl).
  exists g; split=> //; exact: (constant_fails y_ex (or_introl erefl) _ hg).1.
have [g [hg _]] := construct_inst (k := Exp 1 1 "e") None erefl (nok (Exp 1 1 "e") erefl) sd (or_intror erefl).
exists g; split=> //; exact: (exp_fails y_ex _ hg).1.
Qed.

(** ** Default solver (C45): an integrated factor of a product is not detected *)
Lemma product_not_detected : exists k X diag g,
  has is_integrated_leaf (extract_leaf_kernels true k) /\ is_tuple X = false /\
  gaussian_process smolgp_ops k X diag None NoSolver = inr g /\
  sv_kind (g_solver g) = StateSpaceSolver.
Proof.
exists (Product (IntegratedMatern32 1 1 1 "i") (SHO 1 1 1 "s")), X_ex, diag_ex.
have [g [hg [kg _]]] := construct_inst (k := Product (IntegratedMatern32 1 1 1 "i") (SHO 1 1 1 "s")) None
  erefl (or_introl (conj (fun f => f) I)) (vd_d X_ex_valid) (or_introl erefl).
exists g; split=> //; split=> //; split=> //.
Qed.

Lemma cond_example : exists g lp c,
  gaussian_process smolgp_ops k_kept X_ex diag_ex None NoSolver = inr g /\
  g_states g = None /\ gp_condition smolgp_ops g y_ex None None = inr (lp, c) /\
  exists st, g_states c = Some st.
Proof.
have [kern [g [lp [c [_ [hg hc]]]]]] := fit_example.
exists g, lp, c; split=> //; split; last first.
  by split=> //; have [_ h] := condition_states hc.
have [k' [_ ->]] := gaussian_process_inr (or_introl erefl) (vd_d X_ex_valid)
  (const_obs_not_integrated k_kept_const) hg.
by [].
Qed.

Lemma cond_test_refuted : exists k X diag y Xt g lp c,
  wf_kernel k /\ const_obs k /\ names_ok k /\ valid_data X diag y /\ steps_kept k (times X) /\
  gaussian_process smolgp_ops k X diag None NoSolver = inr g /\
  gp_condition smolgp_ops g y None None = inr (lp, c) /\
  exists e, gp_condition smolgp_ops g y (Some Xt) None = inl e.
Proof.
have [kern [g [lp [c [_ [hg hc]]]]]] := fit_example.
exists k_kept, X_ex, diag_ex, y_ex, Xt_ex, g, lp, c.
exact (conj k_kept_wf (conj k_kept_const (conj k_kept_names (conj X_ex_valid (conj X_ex_kept
  (conj hg (conj hc (condition_test_fails smolgp_ops g y_ex Xt_ex None)))))))).
Qed.

Definition k_par := Sum (SHO 1 1 1 "a") (Matern52 1 1 "b").
Lemma par_example : wf_kernel k_par /\ names_ok k_par /\ no_constant k_par /\ no_exp k_par /\
  md (denote k_par) <> 1%N.
Proof.
do !split=> //=; try lra.
by left; split; [case | split; [case |]].
Qed.

Lemma parallel_v_S_refuted : exists s y,
  (exists r, so_condition (smolgp_ops ParallelStateSpaceSolver) s y true = inr r) /\
  (exists e, so_condition (smolgp_ops ParallelStateSpaceSolver) s y false = inl e).
Proof.
exists (Solver ParallelStateSpaceSolver k_par X_ex [:: 1; 1; 1; 1]), y_ex.
split; last exact: parallel_return_v_S.
by rewrite /= par_solver_conditionE /par_guard /=; eexists.
Qed.

Lemma order_example : perm_eq [:: 0; 2; 1; 3]%N (iota 0 4) /\
  valid_data X_ex (Some (Vector [:: 1; 2; 3; 4])) y_ex /\
  valid_data (CArray [seq nth 0 (times X_ex) i | i <- [:: 0; 2; 1; 3]%N])
    (Some (Vector [seq nth 0 [:: 1; 2; 3; 4] i | i <- [:: 0; 2; 1; 3]%N]))
    [seq nth 0 y_ex i | i <- [:: 0; 2; 1; 3]%N].
Proof.
split=> //; case: X_ex_valid => N0 so _ _ _ _; split.
  by split=> //; case=> [|[|[|[|i]]]] //= _; lra.
split=> //; last by case=> [|[|[|[|i]]]] //= _; lra.
Qed.

Lemma kinds_example : exists k t d i diag g1 g2,
  has is_integrated_leaf (summands k) /\
  gaussian_process smolgp_ops k (CTriple t d i) diag None NoSolver = inr g1 /\
  gaussian_process smolgp_ops k_kept X_ex diag_ex None NoSolver = inr g2.
Proof.
have [kern [g [lp [c [_ [hg hc]]]]]] := fit_example.
exists (IntegratedMatern32 1 1 1 "i"), [:: 0; 1], [:: /2; /2], [:: 0; 0]%N, (Some (Vector [:: 1; 1])).
by do 2!eexists; split; [|split; [reflexivity|exact: hg]].
Qed.
