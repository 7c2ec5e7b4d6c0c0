(** The front end returns the same with the parallel and the sequential solver. *)
From Coq Require Import Reals String Lra.
From mathcomp Require Import all_ssreflect all_algebra.
From Verif.Prelude Require Import Rstruct Psd.
From Verif.Spec Require Import Expm Markov Lti WfKernel Data.
From Verif.Model Require Import Array Jax Ssm Sequential Parallel BaseKernels Kernel Integrated Frontend
  SequentialOps Gp.
From Verif.Proofs Require Import StateCov SeqExact SeqIdeal SeqMore Lti KernelLti
  KernelProps KernelThms Names Rename Fit FitAny FitMore FrontThms FitExample FrontDefined FrontProps ParExact.
Set Implicit Arguments.
Unset Strict Implicit.
Unset Printing Implicit Defensive.
Import Order.TTheory GRing.Theory Num.Theory.

Section Run.
Variables (k : kernel) (X : coords) (diag : option farray) (y : seq R).
Hypothesis wf : wf_kernel k.
Hypothesis co : const_obs k.
Hypothesis vd : valid_data X diag y.
Hypothesis kept : steps_kept k (times X).
Let N := num_coords X.
Let nd := variances diag N.
Let m := denote k.
Let t : seq R := times X.

Lemma par_runE : par_condition (to_ssm m) t y nd = seq_condition (to_ssm m) t y nd true.
Proof.
have v := vks wf.
have q0 := exact0 wf kept.
have v0 : mA m (CT 0) (CT 0) = 1%:M%R := vs_id v.
apply: par_conditionE.
- by move=> s s'; apply: const_obsP.
- exact: v0.
- change (mQ m (CT 0) (CT 0) = 0%R); rewrite q0 /exact_noise v0.
  by rewrite trmx1 mul1mx mulmx1 subrr.
- exact: pd_psd (vs_pinf v).
- move=> i hi; change (psdmx (mQ m (CT 0) (CT (nth 0%R t i.+1 - nth 0%R t i)%R))).
  rewrite (exact_steps wf kept hi); apply: (vs_qpsd v).
  by rewrite subr_ge0; apply/RleP/(vd_sorted vd); rewrite leqnSn.
- by move=> i; apply: (nd_pos vd).
- exact: (N_pos vd).
move=> i hi.
have [/pd_unit h _] := cond_pd v y (t_sorted vd) (nd_pos vd) true hi.
move: h; rewrite -(fit_condE diag y wf kept) /fit_cond /= (nth_map (0, 0, 0, 0, 0, 0)%R) //.
by rewrite (_ : size _ = size t) //; exact: size_out.
Qed.
End Run.

Lemma predict_statesE k X f mu va nd s c Xt y' full comp rv :
  gp_predict smolgp_ops (@Gp k X f mu va nd s (Some c)) Xt y' full comp rv
  = (p <-- @gp_predict_conditioned smolgp_ops (@Gp k X f mu va nd s (Some c)) c Xt full comp rv None ;;
     inr (existT prediction _ p)).
Proof. by []. Qed.

(** ** The two solvers as gp.py sees them *)
Section Same.
Variables (k : kernel) (X : coords) (diag : option farray) (mean : option (coord -> R)) (y : seq R).
Hypothesis wf : wf_kernel k.
Hypothesis co : const_obs k.
Hypothesis vd : valid_data X diag y.
Hypothesis kept : steps_kept k (times X).
Hypothesis tr : transition_raises true k = None.
Hypothesis d1 : md (denote k) <> 1%N.
Let N := num_coords X.
Let nd := variances diag N.
Let s := Solver StateSpaceSolver k X nd.
Let p := Solver ParallelStateSpaceSolver k X nd.

Lemma par_guard_inr A (a : A) : par_guard p a = inr a.
Proof. by rewrite /par_guard /= tr /sdim_of /=; move/eqP/negbTE: d1 => ->. Qed.

Lemma same_kalman b : so_kalman (smolgp_ops ParallelStateSpaceSolver) p y b
  = so_kalman (smolgp_ops StateSpaceSolver) s y b.
Proof.
rewrite /= par_kalmanE seq_kalmanE /= (true_false tr) par_guard_inr par_runE //.
by case: b.
Qed.

Lemma same_condition : so_condition (smolgp_ops ParallelStateSpaceSolver) p y true
  = so_condition (smolgp_ops StateSpaceSolver) s y true.
Proof.
by rewrite /= par_solver_conditionE seq_solver_conditionE /= (true_false tr) par_guard_inr /= par_runE.
Qed.

Lemma same_predict Xt (r : results (md (denote k))) : is_tuple X = false -> is_tuple Xt = false ->
  @so_predict (smolgp_ops ParallelStateSpaceSolver) p Xt r
  = @so_predict (smolgp_ops StateSpaceSolver) s Xt r.
Proof.
move=> h1 h2; rewrite /= /par_solver_predict /= h1 h2 /=.
by rewrite /seq_solver_predict; case: (r_coords r).
Qed.

Variables (gs gp : gp).
Hypothesis hs : gaussian_process smolgp_ops k X diag mean (SolverClass StateSpaceSolver) = inr gs.
Hypothesis hp : gaussian_process smolgp_ops k X diag mean (SolverClass ParallelStateSpaceSolver) = inr gp.

Let mf := if mean is Some f then f else (fun _ : coord => 0%R).
Lemma gpE : exists k', assign_unique_kernel_names k = inr k' /\
  gs = @Gp k' X mf (map mf (coord_list X)) None nd s None /\
  gp = @Gp k' X mf (map mf (coord_list X)) None nd p None.
Proof.
move: hs hp; rewrite /gaussian_process /gp_init.
case e: assign_unique_kernel_names => [//|k'] /=; rewrite (unique_integrated e) wf_not_integrated //=.
rewrite size_map size_coord_list broadcast_variances ?(vd_d vd) //= => [[<-] [<-]].
by exists k'.
Qed.

Lemma par_log_probability : gp_log_probability smolgp_ops gp y = gp_log_probability smolgp_ops gs y.
Proof.
have [k' [_ [-> ->]]] := gpE; rewrite /gp_log_probability [g_solver _]/= [in RHS]/g_solver.
by rewrite [sv_kind p]/= [sv_kind s]/= same_kalman.
Qed.

Lemma par_gp_condition comp :
  match gp_condition smolgp_ops gs y None comp, gp_condition smolgp_ops gp y None comp with
  | inl e, inl e' => e = e'
  | inr (lp, c), inr (lp', c') =>
      lp = lp' /\ g_X c = g_X c' /\ g_mean c = g_mean c' /\ g_var c = g_var c' /\
      forall Xt y' full comp rv, (forall Xt', Xt = Some Xt' -> ~~ is_tuple X && ~~ is_tuple Xt') ->
        gp_predict smolgp_ops c Xt y' full comp rv = gp_predict smolgp_ops c' Xt y' full comp rv
  | _, _ => False
  end.
Proof.
have [k' [ek [-> ->]]] := gpE.
have ni' : gp_integrated k' = false by rewrite (unique_integrated ek) wf_not_integrated.
have hr : so_condition (smolgp_ops StateSpaceSolver) s y true = inr (fit_results k X diag y true).
  by rewrite /= seq_solver_conditionE /= (true_false tr).
rewrite (gp_condition_inst mf (map mf (coord_list X)) (erefl : is_integrated_kind StateSpaceSolver = false) hr erefl erefl ni').
have hr' : so_condition (smolgp_ops ParallelStateSpaceSolver) p y true = inr (fit_results k X diag y true).
  by rewrite same_condition.
rewrite (gp_condition_inst mf (map mf (coord_list X)) (erefl : is_integrated_kind ParallelStateSpaceSolver = false) hr' erefl erefl ni').
set w := @projected StateSpaceSolver k k' X nd (fit_results k X diag y true) comp.
have -> : @projected ParallelStateSpaceSolver k k' X nd (fit_results k X diag y true) comp = w by [].
move: w => w.
case: (assign_unique_kernel_names k') => [//|k''] /=.
case: w => w1 va; cbv beta iota delta [fst snd]; case: w1 => [x|mu]; first by [].
refine (conj erefl (conj erefl (conj erefl (conj erefl _)))).
move=> Xt y' full comp' rv h.
rewrite !predict_statesE.
case: Xt h => [Xt|//] h; have /andP[/negbTE h1 /negbTE h2] := h _ erefl.
congr (ebind _ _); rewrite /gp_predict_conditioned.
by congr (ebind _ _); rewrite (same_predict _ h1 h2).
Qed.

Lemma par_tuple_predict comp lp c Xt y' full comp' rv : is_tuple X || is_tuple Xt ->
  gp_condition smolgp_ops gp y None comp = inr (lp, c) ->
  gp_predict smolgp_ops c (Some Xt) y' full comp' rv = inl TypeError.
Proof.
move=> tX; have [k' [ek [_ ->]]] := gpE.
have ni' : gp_integrated k' = false by rewrite (unique_integrated ek) wf_not_integrated.
have hr' : so_condition (smolgp_ops ParallelStateSpaceSolver) p y true = inr (fit_results k X diag y true).
  by rewrite same_condition /= seq_solver_conditionE /= (true_false tr).
rewrite (gp_condition_inst mf (map mf (coord_list X)) (erefl : is_integrated_kind ParallelStateSpaceSolver = false) hr' erefl erefl ni').
set w := @projected ParallelStateSpaceSolver k k' X nd (fit_results k X diag y true) comp.
move: w => w.
case: (assign_unique_kernel_names k') => [//|k''] /=.
case: w => w1 va; cbv beta iota delta [fst snd]; case: w1 => [x|mu]; first by [].
case=> _ <-; rewrite predict_statesE /gp_predict_conditioned.
rewrite [g_solver _]/= [sv_kind _]/= [so_predict _]/= /par_solver_predict.
by rewrite [r_coords _]/= [sv_X _]/= tX.
Qed.
End Same.

(** ** Data for which the two solvers agree, and some for which they do not *)
Definition k_pk : kernel := Sum (SHO 1 1 1 "a") (Product (Matern52 2 1 "m") (Cosine 1 2 "c")).
Lemma k_pk_wf : wf_kernel k_pk. Proof. rewrite /=; repeat split; lra. Qed.
Lemma k_pk_const : const_obs k_pk. Proof. by []. Qed.
Lemma k_pk_names : names_ok k_pk. Proof. by left; split; [case | split; [case |]]. Qed.
Lemma k_pk_no_constant : no_constant k_pk. Proof. by []. Qed.
Lemma k_pk_no_exp : no_exp k_pk. Proof. by []. Qed.
Lemma X_ex_pk : steps_kept k_pk (times X_ex).
Proof. by have [[h1 _] h2] := X_ex_kept; split=> [|i hi]; split=> //; have [] := h2 i hi. Qed.

Lemma par_front_example : transition_raises true k_pk = None /\ md (denote k_pk) <> 1%N /\
  is_tuple X_ex = false /\
  exists gs gp lp c lp' c',
  gaussian_process smolgp_ops k_pk X_ex diag_ex None (SolverClass StateSpaceSolver) = inr gs /\
  gaussian_process smolgp_ops k_pk X_ex diag_ex None (SolverClass ParallelStateSpaceSolver) = inr gp /\
  gp_condition smolgp_ops gs y_ex None None = inr (lp, c) /\
  gp_condition smolgp_ops gp y_ex None None = inr (lp', c').
Proof.
split=> //; split=> //; split=> //.
have n1 : num_coords X_ex <> 1%N by [].
have d1 : md (denote k_pk) <> 1%N by [].
have [gs [lp [c [h1 [_ [h2 _]]]]]] := works_seq None y_ex k_pk_wf k_pk_names (vd_d X_ex_valid) n1 k_pk_no_constant.
have [gp [lp' [c' [h3 [_ [h4 _]]]]]] := works_par None y_ex k_pk_wf k_pk_names (vd_d X_ex_valid) n1
  k_pk_no_constant k_pk_no_exp d1 erefl.
by exists gs, gp, lp, c, lp', c'.
Qed.

Lemma par_exp_refuted : exists k X diag y gs gp,
  wf_kernel k /\ const_obs k /\ names_ok k /\ valid_data X diag y /\ steps_kept k (times X) /\
  gaussian_process smolgp_ops k X diag None (SolverClass StateSpaceSolver) = inr gs /\
  gaussian_process smolgp_ops k X diag None (SolverClass ParallelStateSpaceSolver) = inr gp /\
  (exists lp, gp_log_probability smolgp_ops gs y = inr lp) /\
  (exists e, gp_log_probability smolgp_ops gp y = inl e).
Proof.
have n1 : num_coords X_ex <> 1%N by [].
have wf : wf_kernel (Exp 1 1 "e") by split; [exact: Rlt_0_1 | exact: R1_neq_R0].
have nok : names_ok (Exp 1 1 "e") by left; split; [case |].
have [gs [lp [c [h1 [h2 _]]]]] := works_seq None y_ex wf nok (vd_d X_ex_valid) n1 I.
have [gp [h3 _]] := construct_inst (k := Exp 1 1 "e") (X := X_ex) None erefl nok (vd_d X_ex_valid) (or_intror erefl).
exists (Exp 1 1 "e"), X_ex, diag_ex, y_ex, gs, gp.
refine (conj wf (conj _ (conj nok (conj X_ex_valid (conj _ (conj h1 (conj h3 (conj _ _)))))))) => //.
  by exists lp.
exact: (exp_fails y_ex _ h3).1.
Qed.

(** Coordinates with exposure times: the parallel solver cannot predict. *)
Lemma par_tuple_refuted : exists k X diag y gs gp lp c lp' c' Xt,
  wf_kernel k /\ const_obs k /\ names_ok k /\ valid_data X diag y /\ steps_kept k (times X) /\
  transition_raises true k = None /\ md (denote k) <> 1%N /\
  gaussian_process smolgp_ops k X diag None (SolverClass StateSpaceSolver) = inr gs /\
  gaussian_process smolgp_ops k X diag None (SolverClass ParallelStateSpaceSolver) = inr gp /\
  gp_condition smolgp_ops gs y None None = inr (lp, c) /\
  gp_condition smolgp_ops gp y None None = inr (lp', c') /\
  (exists p, gp_predict smolgp_ops c (Some Xt) None false None true = inr p) /\
  (exists e, gp_predict smolgp_ops c' (Some Xt) None false None true = inl e).
Proof.
pose X := CPair (times X_ex) [:: 1; 1; 1; 1]%R.
have vd : valid_data X diag_ex y_ex by case: X_ex_valid => *; split.
have n1 : num_coords X <> 1%N by [].
have d1 : md (denote k_pk) <> 1%N by [].
have [gs [lp [c [h1 [_ [h2 h3]]]]]] := works_seq None y_ex k_pk_wf k_pk_names (vd_d vd) n1 k_pk_no_constant.
have [gp [hp _]] := construct_inst (k := k_pk) (X := X) None (wf_not_integrated k_pk_wf) k_pk_names (vd_d vd)
  (or_intror erefl).
have := par_gp_condition k_pk_wf k_pk_const vd X_ex_pk erefl d1 h1 hp None.
rewrite h2; case hc: (gp_condition smolgp_ops gp y_ex None None) => [e|[lp' c']]; first by case.
move=> _.
exists k_pk, X, diag_ex, y_ex, gs, gp, lp, c, lp', c', X.
refine (conj k_pk_wf (conj k_pk_const (conj k_pk_names (conj vd (conj X_ex_pk (conj erefl
  (conj d1 (conj h1 (conj hp (conj h2 (conj hc (conj (h3 X None) _)))))))))))).
by exists TypeError; apply: (par_tuple_predict k_pk_wf k_pk_const vd X_ex_pk erefl d1 h1 hp None false None true _ hc).
Qed.
