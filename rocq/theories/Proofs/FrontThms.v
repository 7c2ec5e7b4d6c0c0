(** Statements about gp.py that hold for all four solvers, or compare argument
    variants. *)
From Coq Require Import Reals String Lra.
From mathcomp Require Import all_ssreflect all_algebra.
From Verif.Prelude Require Import Rstruct Psd.
From Verif.Spec Require Import WfKernel Data.
From Verif.Model Require Import Array Jax Ssm Sequential Parallel BaseKernels Kernel Integrated Frontend
  SequentialOps Gp.
From Verif.Proofs Require Import Evaluate KernelThms Names Rename Fit.
Set Implicit Arguments.
Unset Strict Implicit.
Unset Printing Implicit Defensive.
Import GRing.Theory.

Section Predict.
Variable ops : solver_kind -> solver_ops.

(** condition without X_test returns a GP with states for its own solver. *)
Lemma condition_states g y comp lp c : gp_condition ops g y None comp = inr (lp, c) ->
  g_solver c = g_solver g /\ exists st, g_states c = Some st.
Proof.
rewrite /gp_condition /=; case: so_condition => [//|res] /=.
case: (r_vS res) => [[v S_]|] //; case: state_arrays => [//|[[[t ii] oo] ss]] /=.
set st := CStates _ _ _ _ _ _ _ _ _ _ _; rewrite /gp_init.
case: assign_unique_kernel_names => [//|k'] /=; case: ifP => // _.
by case: (squeeze _) => //= m [_ <-]; split=> //=; rewrite only_for_refl; eexists.
Qed.

Lemma predict_with_y g y lp c Xt fs kn rv : g_states g = None ->
  gp_condition ops g y None None = inr (lp, c) ->
  gp_predict ops g Xt (Some y) fs kn rv = gp_predict ops c Xt None fs kn rv.
Proof.
move=> hn hc; have [_ [st hst]] := condition_states hc.
by rewrite /gp_predict hn hc /= hst.
Qed.
Lemma predict_with_y_raises g y e Xt fs kn rv : g_states g = None ->
  gp_condition ops g y None None = inl e ->
  gp_predict ops g Xt (Some y) fs kn rv = inl e.
Proof. by move=> hn hc; rewrite /gp_predict hn hc. Qed.

Lemma predict_needs_data g Xt fs kn rv : g_states g = None ->
  gp_predict ops g Xt None fs kn rv = inl AssertionError.
Proof. by move=> hn; rewrite /gp_predict hn. Qed.

Lemma predict_ignores_y g st y y' Xt fs kn rv : g_states g = Some st ->
  gp_predict ops g Xt y fs kn rv = gp_predict ops g Xt y' fs kn rv.
Proof. by move=> h; rewrite /gp_predict h. Qed.

Lemma predict_loc g st y : g_states g = Some st ->
  (exists d, gp_predict ops g None y false None false = inr (existT prediction d (PMean (Vector (g_mean g))))) /\
  (exists d, gp_predict ops g None y false None true
     = inr (existT prediction d (PMeanVar (Vector (g_mean g)) (g_var g)))).
Proof. by move=> h; rewrite /gp_predict h; split; eexists; reflexivity. Qed.

Lemma rows_None d k x : obs_matrix_row d k x = obs_row d k None x.
Proof. by rewrite /obs_matrix_row /obs_row; case: eqP => // e; rewrite observation_model_None. Qed.

(** .loc, .variance and .get_component of the full states. *)
Lemma predict_full g st y Xt kn rv : g_states g = Some st ->
  (exists e, gp_predict ops g (Some Xt) y true kn rv = inl e /\
     forall kn' rv', gp_predict ops g (Some Xt) y false kn' rv' = inl e) \/
  (exists d p, gp_predict ops g (Some Xt) y true kn rv = inr (existT prediction d (PFull p)) /\
     gp_predict ops g (Some Xt) y false None true
       = inr (existT prediction d (PMeanVar (ps_loc p) (Some (ps_variance p)))) /\
     forall name, exists mu va, ps_get_component p [:: name] = inr (mu, va) /\
       gp_predict ops g (Some Xt) y false (Some name) true
         = inr (existT prediction d (PMeanVar mu (Some va)))).
Proof.
move=> e; rewrite /gp_predict e /gp_predict_conditioned.
case: so_predict => [er|mv] /=; first by left; exists er.
right; eexists; eexists; split; first reflexivity; split; last first.
  by move=> name; eexists; eexists; split; reflexivity.
congr (inr (existT _ _ (PMeanVar (squeeze _) (Some (squeeze _)))));
  by apply: eq_mkseq => i /=; rewrite rows_None.
Qed.
End Predict.

(** The common shape of the four solvers: an error that does not depend on the data,
    or one run whose v, S are kept or dropped. *)
Section Shape.
Variable F : realFieldType.
Definition keep_vS d (c : conditioned F d) (b : bool) : conditioned F d :=
  {| c_t := c_t c; c_mp := c_mp c; c_Pp := c_Pp c; c_mf := c_mf c; c_Pf := c_Pf c;
     c_ms := c_ms c; c_Ps := c_Ps c; c_vS := if b then c_vS c else None |}.
Lemma keep_seq (k : ssm F) t y r b : seq_condition k t y r b = keep_vS (seq_condition k t y r true) b.
Proof. by []. Qed.
Lemma keep_int d A Q Hs RE (r y t : seq F) obs inst st P0 b :
  @int_condition F d A Q Hs RE r y t obs inst st P0 b
  = keep_vS (@int_condition F d A Q Hs RE r y t obs inst st P0 true) b.
Proof. by []. Qed.
Lemma keep_int_par d A Q Hs RE (r y t : seq F) obs inst st P0 b :
  @int_par_condition F d A Q Hs RE r y t obs inst st P0 b
  = keep_vS (@int_par_condition F d A Q Hs RE r y t obs inst st P0 true) b.
Proof. by []. Qed.
End Shape.

Definition guarded {A : Type} (o : option err) (a : A) : err + A :=
  match o with Some e => inl e | None => inr a end.

Lemma tracedE s A (a : A) : traced_transition s a = guarded (transition_raises false (sv_kernel s)) a.
Proof. by []. Qed.
Lemma par_guard2 s A B : exists o, (forall a : A, par_guard s a = guarded o a) /\
  (forall a : B, par_guard s a = guarded o a).
Proof.
rewrite /par_guard; case: transition_raises => [e|]; first by exists (Some e).
by case: (sdim_of s == 1%N); [eexists (Some _); split=> a; reflexivity | exists None].
Qed.
Lemma int_par_guard2 s A B : exists o, (forall a : A, int_par_guard s a = guarded o a) /\
  (forall a : B, int_par_guard s a = guarded o a).
Proof.
rewrite /int_par_guard; case: transition_raises => [e|]; first by exists (Some e).
by case: (sdim_of s == 1%N); [eexists (Some _); split=> a; reflexivity | exists None].
Qed.

Lemma seq_kalmanE s y b : seq_kalman s y b =
  guarded (transition_raises false (sv_kernel s))
    (kalman_of (seq_condition (to_ssm (denote (sv_kernel s))) (times (sv_X s)) y (sv_noise s) b)).
Proof. reflexivity. Qed.
Lemma seq_solver_conditionE s y b : seq_solver_condition s y b =
  guarded (transition_raises false (sv_kernel s))
    (results_of (SCtimes (times (sv_X s)))
      (seq_condition (to_ssm (denote (sv_kernel s))) (times (sv_X s)) y (sv_noise s) b)).
Proof. reflexivity. Qed.

Lemma keep_kalman d (c : conditioned _ d) (b : bool) :
  (if b then kalman_of c else drop_vS (kalman_of c)) = kalman_of (keep_vS c b).
Proof. by case: c; case: b. Qed.
Lemma par_kalmanE s y (b : bool) : par_kalman s y b =
  let c := par_condition (to_ssm (denote (sv_kernel s))) (times (sv_X s)) y (sv_noise s) in
  par_guard s (if b then kalman_of c else drop_vS (kalman_of c)).
Proof. reflexivity. Qed.
Lemma par_solver_conditionE s y (b : bool) : par_solver_condition s y b =
  r <-- par_guard s (results_of (SCtimes (times (sv_X s)))
    (par_condition (to_ssm (denote (sv_kernel s))) (times (sv_X s)) y (sv_noise s))) ;;
  if b then inr r else inl ValueError.
Proof. reflexivity. Qed.

Lemma solver_shape kd s y : exists o sc c, 
  (forall b, so_kalman (smolgp_ops kd) s y b = guarded o (kalman_of (keep_vS c b))) /\
  (forall b, so_condition (smolgp_ops kd) s y b
    = r <-- guarded o (results_of sc (keep_vS c b)) ;;
      if (if kd is ParallelStateSpaceSolver then ~~ b else false) then inl ValueError else inr r) /\
  isSome (c_vS c).
Proof.
case: kd.
- exists (transition_raises false (sv_kernel s)); exists (SCtimes (times (sv_X s))).
  exists (seq_condition (to_ssm (denote (sv_kernel s))) (times (sv_X s)) y (sv_noise s) true).
  split=> [b|].
    apply: (etrans (seq_kalmanE s y b)); apply: f_equal; apply: f_equal; exact: keep_seq.
  split=> [b|]; last exact: Logic.eq_refl.
  apply: (etrans (seq_solver_conditionE s y b)).
  apply: (etrans (f_equal _ (f_equal _ (keep_seq _ _ _ _ b)))).
  by case: transition_raises.
- have [o [h1 h2]] := par_guard2 s (kalman_results (sdim_of s)) (results (sdim_of s)).
  exists o; exists (SCtimes (times (sv_X s))).
  have [c ec] : {c | par_condition (to_ssm (denote (sv_kernel s))) (times (sv_X s)) y (sv_noise s) = c}.
    by eexists; reflexivity.
  exists c.
  have hv : isSome (c_vS c) by rewrite -ec; exact: Logic.eq_refl.
  split=> [b|].
    apply: (etrans (par_kalmanE s y b)); rewrite ec -keep_kalman; exact: h1.
  split=> [b|]; last exact: hv.
  apply: (etrans (par_solver_conditionE s y b)); rewrite ec h2.
  by case: b; case: (o); case: (c).
- exists (transition_raises false (sv_kernel s)); exists (int_state_coords s); exists (int_run s y true).
  split=> [b|]; first by rewrite -[keep_vS _ _]/(int_run s y b).
  split=> [b|]; last exact: Logic.eq_refl.
  rewrite -[keep_vS _ _]/(int_run s y b) -tracedE.
  rewrite -[traced_transition _ _]/(int_solver_condition s y b).
  rewrite -[so_condition _ _ _ _]/(int_solver_condition s y b).
  by case: int_solver_condition.
have [o [h1 h2]] := int_par_guard2 s (kalman_results (sdim_of s)) (results (sdim_of s)).
exists o; exists (int_state_coords s); exists (int_par_run s y true).
split=> [b|].
  rewrite -[keep_vS _ _]/(int_par_run s y b); exact: h1.
split=> [b|]; last exact: Logic.eq_refl.
rewrite -[keep_vS _ _]/(int_par_run s y b) -h2.
rewrite -[int_par_guard _ _]/(int_par_solver_condition s y b).
rewrite -[so_condition _ _ _ _]/(int_par_solver_condition s y b).
by case: int_par_solver_condition.
Qed.

(** condition and log_probability report the same number, for the four solvers. *)
Lemma condition_log_probability g y Xt comp lp c :
  gp_condition smolgp_ops g y Xt comp = inr (lp, c) -> gp_log_probability smolgp_ops g y = inr lp.
Proof.
rewrite /gp_condition /gp_log_probability; case: ifP => // _.
have [o [sc [c0 [hk [hc _]]]]] := solver_shape (sv_kind (g_solver g)) (g_solver g) y.
have e0 kd : (if kd is ParallelStateSpaceSolver then ~~ true else false) = false by case: kd.
rewrite hk hc e0; case: o {hk hc} => [//|] /=.
case: (c_vS c0) => [[v S_]|//]; case: state_arrays => [//|[[[t ii] oo] ss]] /=.
case: Xt => [Xt|]; first by case: so_predict.
by case: gp_init => [//|c'] /= [<-].
Qed.

(** condition(y, X_test) never returns. *)
Lemma condition_test_fails ops g y Xt comp : exists e, gp_condition ops g y (Some Xt) comp = inl e.
Proof.
rewrite /gp_condition; case: ifP => _; first by eexists.
case: so_condition => [e|r] /=; first by exists e.
case: (r_vS r) => [[v S_]|]; last by eexists.
case: state_arrays => [e|[[[t ii] oo] ss]] /=; first by exists e.
by case: so_predict => [e|mv] /=; eexists.
Qed.

(** The mean function is stored and not used. *)
Lemma mean_ignored k X diag mean mean' sa g g' : 
  gaussian_process smolgp_ops k X diag mean sa = inr g ->
  gaussian_process smolgp_ops k X diag mean' sa = inr g' ->
  (forall y, gp_log_probability smolgp_ops g y = gp_log_probability smolgp_ops g' y) /\
  (forall y Xt comp, gp_condition smolgp_ops g y Xt comp = gp_condition smolgp_ops g' y Xt comp) /\
  (forall y Xt fs kn rv, gp_predict smolgp_ops g Xt y fs kn rv = gp_predict smolgp_ops g' Xt y fs kn rv).
Proof.
rewrite /gaussian_process /gp_init; case: assign_unique_kernel_names => [//|k'] /=.
case: ifP => // _; rewrite !size_map; case: broadcast => [//|nd] /=.
by case: choose_solver => [//|s] /= [<-] [<-].
Qed.

(** return_v_S *)
Lemma return_v_S_kalman kd s y : forall b, 
  (forall e, so_kalman (smolgp_ops kd) s y b = inl e <-> so_kalman (smolgp_ops kd) s y (~~ b) = inl e) /\
  (forall r r', so_kalman (smolgp_ops kd) s y b = inr r -> so_kalman (smolgp_ops kd) s y (~~ b) = inr r' ->
     [/\ kr_mf r = kr_mf r', kr_Pf r = kr_Pf r', kr_mp r = kr_mp r', kr_Pp r = kr_Pp r' &
         isSome (kr_vS r) = b]).
Proof.
move=> b; have [o [sc [c [hk [_ hv]]]]] := solver_shape kd s y.
rewrite !hk; case: (o) => [e|] /=; split=> // r r' [<-] [<-]; split=> //=.
by case: b.
Qed.

Lemma return_v_S_condition kd s y : kd <> ParallelStateSpaceSolver -> forall b,
  (forall e, so_condition (smolgp_ops kd) s y b = inl e <-> so_condition (smolgp_ops kd) s y (~~ b) = inl e) /\
  (forall r r', so_condition (smolgp_ops kd) s y b = inr r -> so_condition (smolgp_ops kd) s y (~~ b) = inr r' ->
     [/\ r_coords r = r_coords r', (r_mp r, r_Pp r) = (r_mp r', r_Pp r'),
         (r_mf r, r_Pf r) = (r_mf r', r_Pf r'), (r_ms r, r_Ps r) = (r_ms r', r_Ps r') &
         isSome (r_vS r) = b]).
Proof.
move=> hp b; have [o [sc [c [_ [hc hv]]]]] := solver_shape kd s y.
have e0 b' : (if kd is ParallelStateSpaceSolver then ~~ b' else false) = false.
  by case: (kd) hp.
rewrite !hc !e0; case: (o) => [e|] /=; split=> // r r' [<-] [<-]; split=> //=.
by case: b.
Qed.

Lemma parallel_return_v_S s y : exists e, so_condition (smolgp_ops ParallelStateSpaceSolver) s y false = inl e.
Proof.
have [o [sc [c [_ [hc hv]]]]] := solver_shape ParallelStateSpaceSolver s y.
by rewrite hc; case: (o) => [e|] /=; eexists.
Qed.

(** Default solver. *)
Lemma default_kind k X diag mean g : gaussian_process smolgp_ops k X diag mean NoSolver = inr g ->
  sv_kind (g_solver g) = (if has is_integrated_leaf (summands k) then IntegratedStateSpaceSolver
                          else StateSpaceSolver) /\
  (has is_integrated_leaf (summands k) -> is_tuple X).
Proof.
rewrite /gaussian_process /gp_init; case e: assign_unique_kernel_names => [//|k'] /=.
rewrite (unique_integrated e) /gp_integrated -summandsE.
case: (has _ _) => /=; last first.
  by case: broadcast => [//|nd] /= [<-].
case: X => [t|t d|t d i] //=; case: broadcast => [//|nd] //= [<-].
by [].
Qed.
Lemma integrated_needs_tuple k t diag mean : has is_integrated_leaf (summands k) ->
  (exists k', assign_unique_kernel_names k = inr k') ->
  gaussian_process smolgp_ops k (CArray t) diag mean NoSolver = inl AssertionError.
Proof.
move=> h [k' e]; rewrite /gaussian_process /gp_init e /=.
by rewrite (unique_integrated e) /gp_integrated -summandsE h.
Qed.
