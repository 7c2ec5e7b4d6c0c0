(** When the calls return a value. *)
From Coq Require Import Reals String Lra.
From mathcomp Require Import all_ssreflect all_algebra.
From Verif.Prelude Require Import Rstruct Psd.
From Verif.Spec Require Import WfKernel Data.
From Verif.Model Require Import Array Jax Ssm Sequential Parallel BaseKernels Kernel Integrated Frontend
  SequentialOps Gp.
From Verif.Proofs Require Import Evaluate KernelThms Names Rename Fit FitAny FrontThms.
Set Implicit Arguments.
Unset Strict Implicit.
Unset Printing Implicit Defensive.
Import GRing.Theory.

(** Construction with one of the two instantaneous solver classes. *)
Lemma construct_inst k X diag mean kd : gp_integrated k = false -> names_ok k ->
  size (variances diag (num_coords X)) = num_coords X ->
  kd = StateSpaceSolver \/ kd = ParallelStateSpaceSolver ->
  exists g, gaussian_process smolgp_ops k X diag mean (SolverClass kd) = inr g /\
    sv_kind (g_solver g) = kd /\ sv_kernel (g_solver g) = k /\ sv_X (g_solver g) = X /\
    g_X g = X /\ g_kernel g = (if assign_unique_kernel_names k is inr k' then k' else k) /\ g_states g = None.
Proof.
move=> ni /unique_names_ok[k' [e _]] sd hk.
rewrite /gaussian_process /gp_init e /= (unique_integrated e) ni /= size_map size_coord_list.
rewrite broadcast_variances //=.
by case: hk => -> /=; eexists; split; first reflexivity.
Qed.

Definition inst_kind kd := kd = StateSpaceSolver \/ kd = ParallelStateSpaceSolver.

Section Inst.
Variables (kd : solver_kind) (k : kernel) (X : coords) (diag : option farray) (mean : option (coord -> R)).
Variable y : seq R.
Hypothesis hkd : inst_kind kd.
Hypothesis wf : wf_kernel k.
Hypothesis nok : names_ok k.
Hypothesis sd : size (variances diag (num_coords X)) = num_coords X.
Hypothesis N1 : num_coords X <> 1%N.
Let nd := variances diag (num_coords X).
Let s := Solver kd k X nd.
Hypothesis tr : kd = StateSpaceSolver -> transition_raises false k = None.
Hypothesis trp : kd = ParallelStateSpaceSolver -> transition_raises true k = None /\ md (denote k) <> 1%N.

Lemma inst_condition : exists r v S_, so_condition (smolgp_ops kd) s y true = inr r /\
  r_vS r = Some (v, S_) /\ r_coords r = SCtimes (times X).
Proof.
case: hkd => e; subst kd.
  rewrite /= seq_solver_conditionE tr //=.
  by do 3!eexists; split; first reflexivity.
have [e1 /eqP/negbTE e2] := trp erefl.
rewrite /= par_solver_conditionE /par_guard /= e1 /sdim_of /= e2 /=.
by do 3!eexists; split; first reflexivity.
Qed.

Lemma traced_predict r Xt : (forall t, r_coords r <> SCtimes t) ->
  transition_raises false k = None ->
  exists l, @seq_solver_predict s Xt r = inr l.
Proof.
rewrite /seq_solver_predict /traced_transition; case: (r_coords r) => [t h|t i o st _] e; first by case: (h t).
by rewrite [sv_kernel s]/= e; eexists.
Qed.

Lemma true_false : transition_raises true k = None -> transition_raises false k = None.
Proof.
elim: (k) => //= k1 IH1 k2 IH2; case e1: (transition_raises true k1) => [//|] h;
  by rewrite IH1 // IH2.
Qed.

Lemma inst_works : exists g lp c,
  gaussian_process smolgp_ops k X diag mean (SolverClass kd) = inr g /\
  gp_log_probability smolgp_ops g y = inr lp /\
  gp_condition smolgp_ops g y None None = inr (lp, c) /\
  forall Xt y', (kd = ParallelStateSpaceSolver -> is_tuple X = false /\ is_tuple Xt = false) ->
    exists p, gp_predict smolgp_ops c (Some Xt) y' false None true = inr p.
Proof.
have [k' [e [k'' e']]] := unique_names_ok nok.
have ni := wf_not_integrated wf.
pose mf := if mean is Some f then f else (fun _ : coord => 0%R).
pose g := @Gp k' X mf (map mf (coord_list X)) None nd s None.
have hg : gaussian_process smolgp_ops k X diag mean (SolverClass kd) = inr g.
  rewrite /gaussian_process /gp_init e /= (unique_integrated e) ni /= size_map size_coord_list.
  by rewrite broadcast_variances //= /g /s; case: (hkd) => ->.
have [r [v [S_ [h1 [h2 h3]]]]] := inst_condition.
have ik : is_integrated_kind kd = false by case: (hkd) => ->.
have ni' : gp_integrated k' = false by rewrite (unique_integrated e).
have hc := @gp_condition_inst kd k k' X mf (map mf (coord_list X)) nd y r v S_ ik h1 h2 h3 ni' None.
have sq1 (f : nat -> R) : squeeze (mkseq f (num_coords X)) = Vector (mkseq f (num_coords X)).
  by apply: squeeze_vec; rewrite size_mkseq.
move: hc; rewrite e' /projected project_inst; cbv beta iota delta [ebind fst snd]; rewrite sq1 => hc.
exists g; eexists; eexists; split; first exact: hg.
split; last split.
- exact: (condition_log_probability hc).
- exact: hc.
move=> Xt y' ht; rewrite /gp_predict [g_states _]/= /gp_predict_conditioned.
rewrite [g_solver _]/=.
have [l ->] : exists l, so_predict (smolgp_ops (sv_kind s)) Xt (cs_call (inst_states X r)) = inr l.
  case: (hkd) => ek.
    have [l hl] := @traced_predict (cs_call (inst_states X r)) Xt (ltac:(done)) (tr ek).
    by exists l; rewrite -hl /s ek.
  have [h4 h5] := trp ek; have [t1 t2] := ht ek.
  have [l hl] := @traced_predict (cs_call (inst_states X r)) Xt (ltac:(done)) (true_false h4).
  by exists l; rewrite -hl /s ek /= /par_solver_predict /= t1 t2.
by eexists.
Qed.
End Inst.

(** What fails: an expression containing Constant with any solver; one containing Exp
    with the parallel solver; one of state dimension 1 with the parallel solver. *)
Lemma fails_kalman kd k X diag mean g y : inst_kind kd ->
  gaussian_process smolgp_ops k X diag mean (SolverClass kd) = inr g ->
  (transition_raises (if kd is ParallelStateSpaceSolver then true else false) k <> None \/
   (kd = ParallelStateSpaceSolver /\ md (denote k) = 1%N)) ->
  (exists e, gp_log_probability smolgp_ops g y = inl e) /\
  (exists e, gp_condition smolgp_ops g y None None = inl e).
Proof.
rewrite /gaussian_process /gp_init; case e: assign_unique_kernel_names => [//|k'] /=.
case: ifP => // _ hk; case: broadcast => [//|nd] /=.
have -> : so_init (smolgp_ops kd) k X = None by case: hk => ->.
case=> <- h.
pose s := Solver kd k X nd.
have h1 : forall y, exists e, so_kalman (smolgp_ops kd) s y true = inl e.
  move=> z; case: hk h => ek; subst kd; rewrite /s /=.
    case=> [hr|[]//]; rewrite /seq_kalman /traced_transition /=.
    by case: transition_raises hr => // er _; exists er.
  rewrite /par_kalman /par_guard /= /sdim_of /=.
  case: transition_raises => [er _|]; first by exists er.
  by case=> // -[_ /eqP e1]; case: ifP e1 => // _ _; eexists.
have h2 : forall y, exists e, so_condition (smolgp_ops kd) s y true = inl e.
  move=> z; case: hk h => ek; subst kd; rewrite /s /=.
    case=> [hr|[]//]; rewrite /seq_solver_condition /traced_transition /=.
    by case: transition_raises hr => // er _; exists er.
  rewrite /par_solver_condition /par_guard /= /sdim_of /=.
  case: transition_raises => [er _|]; first by exists er.
  by case=> // -[_ /eqP e1]; case: ifP e1 => // _ _; eexists.
have [e1 h1'] := h1 y; have [e2 h2'] := h2 y.
split; [exists e1 | exists e2].
  by rewrite /gp_log_probability /= -/s h1'.
by rewrite /gp_condition /= -/s h2'.
Qed.
