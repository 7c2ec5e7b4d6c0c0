(** The front end with the sequential solver: constructor, log_probability,
    condition and predict reduce to dense Gaussian-process regression. *)
From Coq Require Import Reals String Lra Eqdep_dec.
From mathcomp Require Import all_ssreflect all_algebra.
From Verif.Prelude Require Import Rstruct Psd.
From Verif.Spec Require Import Gp Markov Lti WfKernel LogNormal Data.
From Verif.Model Require Import Array Jax Ssm Sequential BaseKernels Kernel Integrated Frontend
  SequentialOps Gp.
From Verif.Proofs Require Import StateCov SeqExact SeqIdeal SeqGp GpExt Lti KernelLti Evaluate
  KernelThms Names.
Set Implicit Arguments.
Unset Strict Implicit.
Unset Printing Implicit Defensive.
Import Order.TTheory GRing.Theory Num.Theory.

(** ** Sums of logarithms *)
Lemma log_sum (v s : nat -> R) n : (forall i, (i < n)%N -> Rlt 0 (s i)) ->
  Rlt 0 (\prod_(i < n) s i)%R /\
  (\sum_(0 <= k < n) (Rplus (Rplus (sq (Rdiv (v k) (sqrt (s k)))) (Rmult 2 (ln (sqrt (s k)))))
                            (Rmult 1 (ln (Rmult 2 PI)))))%R
  = Rplus (Rplus (\sum_(i < n) v i ^+ 2 / s i)%R (ln (\prod_(i < n) s i)%R))
          (Rmult (INR n) (ln (Rmult 2 PI))).
Proof.
elim: n => [|n IH] h.
  rewrite !big_ord0 big_geq //; split; first exact: Rlt_0_1.
  by rewrite [INR 0]/= R0E R1E ln_1; lra.
have [p0 {}IH] := IH (fun i hi => h i (ltnW hi)); have s0 := h n (ltnSn n).
have pE : (\prod_(i < n.+1) s i)%R = Rmult (\prod_(i < n) s i)%R (s n) by rewrite big_ord_recr.
have sE : (\sum_(i < n.+1) v i ^+ 2 / s i)%R = Rplus (\sum_(i < n) v i ^+ 2 / s i)%R (v n ^+ 2 / s n)%R.
  by rewrite big_ord_recr.
rewrite S_INR pE sE big_nat_recr //; split; first by apply: Rmult_lt_0_compat.
rewrite IH (ln_mult _ (s n)) //.
have e1 : (v n ^+ 2 / s n)%R = sq (Rdiv (v n) (sqrt (s n))).
  have q0 := sqrt_lt_R0 _ s0; have qq := sqrt_sqrt _ (Rlt_le _ _ s0).
  rewrite expr2 /sq; set q := sqrt (s n) in q0 qq *; rewrite -qq.
  change (@eq R (Rdiv (Rmult (v n) (v n)) (Rmult q q)) (Rmult (Rdiv (v n) q) (Rdiv (v n) q))).
  by field; lra.
have e2 : Rmult 2 (ln (sqrt (s n))) = ln (s n).
  rewrite -{2}(sqrt_sqrt _ (Rlt_le _ _ s0)) ln_mult; try exact: sqrt_lt_R0.
  lra.
rewrite e1 -e2.
match goal with |- _ ?x ?y = ?z => change (@eq R (Rplus x y) z) end.
lra.
Qed.

Lemma compute_log_probE (v S_ : seq 'M[R]_1) :
  (forall i, (i < size v)%N -> Rlt 0 ((nth 0%R S_ i : 'M[R]_1) 0%R 0%R)) -> size S_ = size v ->
  compute_log_prob v S_
  = Fin (Rmult (Ropp (Rdiv 1 2))
      (Rplus (Rplus (\sum_(i < size v) (nth 0 v i : 'M[R]_1) 0 0 ^+ 2 / (nth 0 S_ i : 'M[R]_1) 0 0)%R
                    (ln (\prod_(i < size v) (nth 0 S_ i : 'M[R]_1) 0 0)%R))
             (Rmult (INR (size v)) (ln (Rmult 2 PI))))).
Proof.
move=> h e; rewrite /compute_log_prob; have -> : all (fun s : 'M[R]_1 => Rltb 0 (s 0%R 0%R)) S_.
  by apply/(all_nthP 0%R) => i hi; apply/RltbP/h; rewrite -e.
congr (Fin (Rmult _ _)).
by have [_ <-] := log_sum (fun i => (nth 0 v i : 'M[R]_1) 0 0)%R h.
Qed.

(** ** Coordinates and noise *)
Lemma size_coord_list X : size (coord_list X) = num_coords X.
Proof. by case: X => [t|t u|t u w]; rewrite /coord_list ?size_mkseq // size_map. Qed.

Lemma times_coord_list X : times X = map coord_to_sortable (coord_list X).
Proof.
case: X => [t|t d|t d s] /=; first by rewrite -map_comp map_id.
  apply: (@eq_from_nth _ 0%R) => [|i hi]; first by rewrite size_map size_mkseq.
  by rewrite (nth_map (CT 0)) ?size_mkseq // nth_mkseq.
apply: (@eq_from_nth _ 0%R) => [|i hi]; first by rewrite size_map size_mkseq.
by rewrite (nth_map (CT 0)) ?size_mkseq // nth_mkseq.
Qed.

Lemma coord_nth X i : (i < num_coords X)%N ->
  coord_to_sortable (nth (CT 0) (coord_list X) i) = nth 0%R (times X) i.
Proof. by move=> hi; rewrite times_coord_list (nth_map (CT 0)) ?size_coord_list. Qed.

Lemma broadcast_variances diag N : size (variances diag N) = N ->
  broadcast (odflt (Scalar default_diag) diag) N = inr (variances diag N).
Proof.
case: diag => [[x|v]|] //=; case: v => [|x [|x' v]] //= hs.
- by rewrite -hs.
- by case: N hs => [|[|N]].
- by rewrite -hs eqxx.
Qed.

Lemma sorted_times X : (forall i j, (i <= j < num_coords X)%N ->
    Rle (nth 0%R (times X) i) (nth 0%R (times X) j)) -> sorted <=%R (times X).
Proof.
move=> h; apply/(sortedP 0%R) => i hi; apply/RleP/h.
by rewrite leqnSn.
Qed.

(** ** The constructor *)
Section Ctor.
Variables (k : kernel) (X : coords) (diag : option farray) (mean : option (coord -> R)).
Variable sa : solver_arg.
Hypothesis hsa : default_solver sa.
Hypothesis hd : size (variances diag (num_coords X)) = num_coords X.
Let nd := variances diag (num_coords X).
Let mf := if mean is Some f then f else (fun _ => 0%R).

Definition fitted (k' : kernel) : gp :=
  @Gp k' X mf (map mf (coord_list X)) None nd (Solver StateSpaceSolver k X nd) None.

Lemma gaussian_processE : gp_integrated k = false ->
  gaussian_process smolgp_ops k X diag mean sa
  = (k' <-- assign_unique_kernel_names k ;; inr (fitted k')).
Proof.
move=> ni; rewrite /gaussian_process /gp_init /=.
case e: (assign_unique_kernel_names k) => [//|k'] /=.
rewrite (unique_integrated e) ni /= size_map size_coord_list.
rewrite broadcast_variances //=.
by case: hsa => ->.
Qed.

Lemma gaussian_process_inr g : gp_integrated k = false ->
  gaussian_process smolgp_ops k X diag mean sa = inr g ->
  exists k', assign_unique_kernel_names k = inr k' /\ g = fitted k'.
Proof.
move=> ni; rewrite gaussian_processE //; case: (assign_unique_kernel_names k) => [//|k'] /= [<-].
by exists k'.
Qed.
End Ctor.

Lemma only_for_refl s (c : cstates (sdim_of s)) : only_for c s = Some c.
Proof.
rewrite /only_for; case: eqP => [e|//]; congr Some.
by rewrite (eq_axiomK e).
Qed.

(** ** Conditioned states of the instantaneous solver *)
Lemma nonzero_ones_nseq N : nonzero_ones (nseq N 1%N) N = iota 0 N.
Proof.
rewrite /nonzero_ones size_nseq.
have -> : [seq i <- iota 0 N | nth 0%N (nseq N 1%N) i == 1%N] = iota 0 N.
  by apply/all_filterP/allP => i; rewrite mem_iota add0n => /andP[_ hi]; rewrite nth_nseq hi.
by rewrite take_cat size_iota ltnn subnn take0 cats0.
Qed.

Lemma argsort_iota N : argsort [seq nth 0%N (iota 0 N) i | i <- iota 0 N] = iota 0 N.
Proof.
have -> : [seq nth 0%N (iota 0 N) i | i <- iota 0 N] = iota 0 N.
  apply: (@eq_from_nth _ 0%N) => [|i]; first by rewrite size_map.
  by rewrite size_map size_iota => hi; rewrite (nth_map 0%N) ?size_iota // !nth_iota // ?nth_iota.
rewrite /argsort size_iota; apply: sorted_sort => [a b c|]; first exact: leq_trans.
apply/(sortedP 0%N) => i; rewrite size_iota => hi.
by rewrite !nth_iota ?add0n // ltnW.
Qed.

Lemma data_index_inst d (c : cstates d) : cs_stateid c = nseq (num_coords (cs_X c)) 1%N ->
  cs_obsid c = iota 0 (num_coords (cs_X c)) -> data_index c = iota 0 (num_coords (cs_X c)).
Proof.
move=> e1 e2; rewrite /data_index e1 e2 nonzero_ones_nseq argsort_iota.
apply: (@eq_from_nth _ 0%N) => [|i]; first by rewrite size_map.
by rewrite size_map size_iota => hi; rewrite (nth_map 0%N) ?size_iota // !nth_iota // ?nth_iota.
Qed.

(** What condition stores (instantaneous solvers). *)
Definition inst_states d (X : coords) (r : results d) : cstates d :=
  {| cs_X := X; cs_t := times X; cs_instid := nseq (num_coords X) 0%N;
     cs_obsid := iota 0 (num_coords X); cs_stateid := nseq (num_coords X) 1%N;
     cs_mp := r_mp r; cs_Pp := r_Pp r; cs_mf := r_mf r; cs_Pf := r_Pf r;
     cs_ms := r_ms r; cs_Ps := r_Ps r |}.

Lemma project_inst d (X : coords) (r : results d) (H : coord -> 'M[R]_(1, d)) :
  project_at_data (inst_states X r) H
  = (squeeze (mkseq (fun i => proj_mean (H (nth (CT 0%R) (coord_list X) i)) (nth 0%R (r_ms r) i))
                    (num_coords X)),
     squeeze (mkseq (fun i => proj_var (H (nth (CT 0%R) (coord_list X) i)) (nth 0%R (r_Ps r) i))
                    (num_coords X))).
Proof.
rewrite /project_at_data data_index_inst //=.
by congr (squeeze _, squeeze _); apply/eq_in_map => i; rewrite mem_iota add0n => /andP[_ hi];
  rewrite (nth_map 0%N) ?size_iota // nth_iota.
Qed.

(** condition on an unconditioned GP, any instantaneous solver. *)
Section Condition.
Variables (kd : solver_kind) (k k' : kernel) (X : coords) (mf : coord -> R) (mv nd : seq R).
Let s := Solver kd k X nd.
Let g := @Gp k' X mf mv None nd s None.
Variables (y : seq R) (r : results (sdim_of s)) (v S_ : seq 'M[R]_1).
Hypothesis hk : is_integrated_kind kd = false.
Hypothesis hr : so_condition (smolgp_ops kd) s y true = inr r.
Hypothesis hvS : r_vS r = Some (v, S_).
Hypothesis ht : r_coords r = SCtimes (times X).
Hypothesis nint : gp_integrated k' = false.

Definition projected comp := project_at_data (inst_states X r) (Frontend.obs_row (sdim_of s) k' comp).

Lemma gp_condition_inst comp :
  gp_condition smolgp_ops g y None comp
  = (k'' <-- assign_unique_kernel_names k' ;;
     match (projected comp).1 with
     | Scalar _ => inl IndexError
     | Vector m => inr (compute_log_prob v S_,
         @Gp k'' X (fun _ => 0%R) m (Some (projected comp).2) nd s (Some (inst_states X r)))
     end).
Proof.
rewrite /gp_condition /= hr /= hvS /state_arrays hk ht /=.
rewrite -[size (times X)]/(num_coords X) -/(inst_states X r) /projected /=.
rewrite /gp_init; case e: (assign_unique_kernel_names k') => [//|k''] /=.
rewrite (unique_integrated e) nint /=; case: (squeeze _) => [//|m] /=.
by rewrite only_for_refl.
Qed.
End Condition.

(** ** Exactness *)
Section Exact.
Variables (k : kernel) (X : coords) (diag : option farray) (y : seq R).
Variable kern : coord -> coord -> R.
Hypothesis wf : wf_kernel k.
Hypothesis co : const_obs k.
Hypothesis vd : valid_data X diag y.
Hypothesis kept : steps_kept k (times X).
Hypothesis hkern : forall X1 X2, kernel_evaluate false k X1 X2 = inr (kern X1 X2).
Let N := num_coords X.
Let nd := variances diag N.
Let m := denote k.
Let s := Solver StateSpaceSolver k X nd.
Let ks := to_ssm (ideal m).
Let t : seq R := times X.

Lemma no_raise : transition_raises false k = None.
Proof. by have [] := kernel_evaluate_inr (hkern (CT 0) (CT 0)). Qed.

Lemma kernE X1 X2 : kern X1 X2 = obs_cov ks (coord_to_sortable X1) (coord_to_sortable X2).
Proof.
have [_ ->] := kernel_evaluate_inr (hkern X1 X2).
exact: kernel_evaluate_obs_cov.
Qed.

Lemma vks : valid_ssm ks. Proof. exact: kernel_ideal_valid. Qed.

Lemma t_sorted : sorted <=%R (t : seq [realFieldType of R]).
Proof. exact: (sorted_times (vd_sorted vd)). Qed.

Lemma nd_pos i : (i < size (t : seq [realFieldType of R]))%N ->
  (0 < (nd : seq [realFieldType of R])`_i)%R.
Proof. by move=> hi; apply/RltP/(vd_pos vd). Qed.

Lemma N_pos : (0 < size (t : seq [realFieldType of R]))%N.
Proof. exact: (vd_N vd). Qed.

Lemma exact0 : noise_exact_at m 0.
Proof. by apply: kernel_noise => //; case: kept. Qed.
Lemma exact_steps i : (i.+1 < size t)%N ->
  noise_exact_at m (nth 0%R t i.+1 - nth 0%R t i)%R.
Proof. by move=> hi; apply: kernel_noise => //; case: kept => _; apply. Qed.

Definition fit_cond b := seq_condition (to_ssm m) t y nd b.
Lemma fit_condE b : fit_cond b = seq_condition ks t y nd b.
Proof. by apply: condition_ideal; [apply: exact0 | apply: exact_steps]. Qed.

Definition fit_results b : results (sdim_of s) := results_of (SCtimes t) (fit_cond b).
Lemma seq_conditionE b : so_condition (smolgp_ops StateSpaceSolver) s y b = inr (fit_results b).
Proof. by rewrite /= /seq_solver_condition /traced_transition /= no_raise. Qed.

Lemma obs_at x : mH m x = sobs ks (coord_to_sortable x).
Proof. exact: const_obsP. Qed.

Lemma fit_mean i : (i < N)%N ->
  proj_mean (mH m (nth (CT 0%R) (coord_list X) i)) (nth 0%R (c_ms (fit_cond true)) i)
  = gp_mean (CT 0) kern (coord_list X) nd y (nth (CT 0) (coord_list X) i).
Proof.
move=> hi; rewrite /proj_mean fit_condE obs_at coord_nth //.
rewrite -/t (smooth_mean vks y t_sorted nd_pos true) //.
rewrite -(coord_nth hi) /t times_coord_list.
exact: (gp_mean_map (CT 0) (0%R : R) kernE).
Qed.

Lemma fit_var i : (i < N)%N ->
  proj_var (mH m (nth (CT 0%R) (coord_list X) i)) (nth 0%R (c_Ps (fit_cond true)) i)
  = gp_var (CT 0) kern (coord_list X) nd (nth (CT 0) (coord_list X) i).
Proof.
move=> hi; rewrite /proj_var fit_condE obs_at coord_nth //.
rewrite -/t (smooth_var vks y t_sorted nd_pos true) //.
rewrite -(coord_nth hi) /t times_coord_list.
exact: (gp_var_map (CT 0) (0%R : R) kernE).
Qed.

Lemma fit_point_mean b x : predict_kept k t (coord_to_sortable x) ->
  proj_mean (mH m x) (@pr_point _ (to_ssm m) (fit_cond b) (coord_to_sortable x)).1
  = gp_mean (CT 0) kern (coord_list X) nd y x.
Proof.
move=> hp; rewrite /proj_mean (@pr_point_ideal m).
- rewrite fit_condE obs_at (point_mean vks y t_sorted nd_pos N_pos).
  by rewrite /t times_coord_list; apply: (gp_mean_map (CT 0) (0%R : R) kernE).
- exact: t_sorted.
move=> i hi h1 h2; apply: kernel_noise => //; apply: hp => //; first exact/RleP.
by move=> j hj; apply/RltP/h2.
Qed.

Lemma fit_point_var b x : predict_kept k t (coord_to_sortable x) ->
  proj_var (mH m x) (@pr_point _ (to_ssm m) (fit_cond b) (coord_to_sortable x)).2
  = gp_var (CT 0) kern (coord_list X) nd x.
Proof.
move=> hp; rewrite /proj_var (@pr_point_ideal m).
- rewrite fit_condE obs_at (point_var vks y t_sorted nd_pos N_pos).
  by rewrite /t times_coord_list; apply: (gp_var_map (CT 0) (0%R : R) kernE).
- exact: t_sorted.
move=> i hi h1 h2; apply: kernel_noise => //; apply: hp => //; first exact/RleP.
by move=> j hj; apply/RltP/h2.
Qed.

Let o := KalmanFilter (to_ssm m) t y nd.
Lemma oE : o = KalmanFilter ks t y nd.
Proof. by apply: KalmanFilter_ideal; [apply: exact0 | apply: exact_steps]. Qed.

Lemma fit_S_pos i : (i < N)%N -> Rlt 0 ((nth 0%R (map (@o_S _ _) o) i : 'M[R]_1) 0%R 0%R).
Proof. by rewrite oE => hi; apply/RltP; apply: (kf_S_pos vks y t_sorted nd_pos hi). Qed.

Lemma size_o : size o = N. Proof. exact: size_out. Qed.

Lemma fit_quad : (\sum_(i < N) (nth 0 (map (@o_v _ _) o) i : 'M[R]_1) 0 0 ^+ 2
    / (nth 0 (map (@o_S _ _) o) i : 'M[R]_1) 0 0)%R = gp_quad (CT 0) kern (coord_list X) nd y.
Proof.
rewrite oE -(gp_quad_map (CT 0) (0%R : R) kernE) -times_coord_list.
exact: (kf_quad vks y t_sorted nd_pos).
Qed.

Lemma fit_det : (\prod_(i < N) (nth 0 (map (@o_S _ _) o) i : 'M[R]_1) 0 0)%R
  = gp_det (CT 0) kern (coord_list X) nd.
Proof.
rewrite oE -(gp_det_map (CT 0) (0%R : R) kernE) -times_coord_list.
exact: (kf_det vks y t_sorted nd_pos).
Qed.

Lemma fit_log_prob :
  compute_log_prob (map (@o_v _ _) o) (map (@o_S _ _) o)
  = Fin (log_normal (CT 0) kern (coord_list X) nd y).
Proof.
have sz : size (map (@o_v _ _) o) = N by rewrite size_map size_o.
rewrite compute_log_probE; last by rewrite !size_map.
  by rewrite sz fit_quad fit_det /log_normal size_coord_list.
by move=> i; rewrite sz; apply: fit_S_pos.
Qed.
End Exact.
