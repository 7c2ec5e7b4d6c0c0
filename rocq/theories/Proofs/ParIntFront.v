(** The front end returns the same with the parallel and the sequential integrated solver. *)
From Coq Require Import Reals String Lra.
From mathcomp Require Import all_ssreflect all_algebra.
From Verif.Prelude Require Import Rstruct Psd.
From Verif.Spec Require Import Expm Integral Lti Gp WfKernel CovOf LogNormal Data IntCov WfIntegrated Exposures FirstOpen Smoothable.
From Verif.Model Require Import Array Jax Ssm Sequential Parallel BaseKernels IntegratedKernels Kernel Integrated
  Frontend SequentialOps Gp Helpers.
From Verif.Proofs Require Import Expm MxInt VanLoan Lti Leaves IntegratedThms KernelLti GpExt Names Rename Fit
  FitAny IntBook IntExact WindowCov WindowKernel IntGram FitInt IntThms IntWide IntPd FitIntCond ParInt ParFront.
Set Implicit Arguments.
Unset Strict Implicit.
Unset Printing Implicit Defensive.
Import Order.TTheory GRing.Theory Num.Theory.

Lemma leaf_at0 k b n : integrated_of k = Some (b, n) -> wf_kernel b -> sharp_kernel b ->
  mA (denote k) (CT R0) (CT R0) = 1%:M%R /\
  (noise_kept 0 b /\ integral_noise_kept 0 k -> mQ (denote k) (CT R0) (CT R0) = 0%R).
Proof.
move=> ik wf sk.
have hlag : lag (CT R0) (CT R0) = R0 by rewrite /lag /= Rminus_0_r.
have tr : transition_raises false k = None by case: (k) ik.
have ht : kernel_transition false k (CT R0) (CT R0) = inr (mA (denote k) (CT R0) (CT R0)).
  by rewrite /kernel_transition tr.
split.
  have [-> _] := @int_transition false k b n (CT R0) (CT R0) (CT R0) _ ik wf sk ht.
  by rewrite hlag scale0r expm0.
move=> [k1 k2]; have := @int_noise k b n (CT R0) (CT R0) (CT R0) ik wf sk.
by rewrite hlag => /(_ (Rle_refl _) k1 k2) [-> _]; exact: Q_0.
Qed.
Lemma kernel_at0 k : wf_integrated k -> mA (denote k) (CT R0) (CT R0) = 1%:M%R /\
  (all_noise_kept 0 k -> mQ (denote k) (CT R0) (CT R0) = 0%R).
Proof.
elim: k => // [k1 IH1 k2 IH2|w q s n nm|l s n nm|l s n nm|l s n nm|l s n nm];
  try by move=> [wf sk]; exact: leaf_at0.
move=> [/IH1[a1 q1] /IH2[a2 q2]]; split; first by rewrite /= a1 a2 -scalar_mx_block.
by move=> [/q1 e1 /q2 e2] /=; rewrite e1 e2 -[RHS](@block_mx0 _ _ _ _ _).
Qed.

Section Run.
Variables (k : kernel) (tm dl : seq R) (inst : seq nat) (diag : option farray) (y : seq R).
Let X := CTriple tm dl inst.
Let N := size tm.
Let K := N.*2.
Let nd := variances diag N.
Let m := denote k.
Hypothesis wf : wf_integrated k.
Hypothesis ve : valid_exposures (instruments k) X diag y.
Hypothesis sk : exposure_steps_kept k X.
Hypothesis fo : opens_first X.
Let A := fun u v => mA m (CT u) (CT v).
Let Q := fun u v => mQ m (CT u) (CT v).
Let Hs := map (mH m) (coord_list X).
Let t := @t_states [realFieldType of R] tm dl.
Let obs := @obsid [realFieldType of R] tm dl.
Let st := @stateid [realFieldType of R] tm dl.
Let o := integrated_kalman_filter A Q Hs (mReset m) nd y t obs inst st 0 (mPinf m).
Let N0 : (0 < N)%N := ve_N ve.
Local Notation stn := (@IntBook.st [realFieldType of R] tm dl).
Local Notation enn := (@en [realFieldType of R] tm dl).

Lemma pf_first : nth 0%N st 0 = 0%N.
Proof.
apply/eqP/negPn/negP=> e; have K0 : (0 < K)%N by rewrite double_gt0.
have i1 := is_end K0 e; have h1 := obs_lt dl K0.
have [i [hi /(_ _ h1)]] := fo.
rewrite !fi_exposure // -(en_finish _ inst) // -i1 -(st_begin _ inst) //.
have := @t_le tm dl 0 (stn i) (leq0n _) (IntBook.st_lt dl hi).
by move=> h2 h3; have := Rlt_not_le _ _ h3.
Qed.

Lemma pf_facts : [/\ psdmx (mPinf m), Q 0%R 0%R = 0%R,
  forall i, (i.+1 < K)%N -> psdmx (Q 0%R (nth 0%R t i.+1 - nth 0%R t i)%R),
  forall i, (i < N)%N -> (0 < nth 0 nd i)%R & size y = N].
Proof.
have [b eb] := wf_integrated_base wf.
have w := kernel_wincov wf eb; split.
- exact: (win_psd_P w).
- by have [_ h] := kernel_at0 wf; apply: h; apply: (fi_step0 ve sk).
- move=> i hi; exact: (@win_psd_Q _ _ _ _ w tm dl (fun i h => fi_step sk h) i hi).
- by move=> i hi; apply/RltP; exact: (fi_nd ve hi).
- exact: (ve_y ve).
Qed.

Let s := Solver IntegratedStateSpaceSolver k X nd.
Let p := Solver ParallelIntegratedStateSpaceSolver k X nd.

Lemma pf_kalman b : c_mp (int_par_run p y b) = c_mp (int_run s y b)
  /\ c_Pp (int_par_run p y b) = c_Pp (int_run s y b)
  /\ c_mf (int_par_run p y b) = c_mf (int_run s y b)
  /\ c_Pf (int_par_run p y b) = c_Pf (int_run s y b)
  /\ c_vS (int_par_run p y b) = c_vS (int_run s y b).
Proof.
have [pP q0 pQ Rp ys] := pf_facts.
have e1 := @pi_m [realFieldType of R] (md m) A Q Hs (mReset m) nd y tm dl inst (mPinf m) pP q0 pQ Rp N0 pf_first.
have e2 := @pi_P [realFieldType of R] (md m) A Q Hs (mReset m) nd y tm dl inst (mPinf m) pP q0 pQ Rp N0 pf_first.
have e3 := @pi_mp [realFieldType of R] (md m) A Q Hs (mReset m) nd y tm dl inst (mPinf m) pP q0 pQ Rp N0 pf_first.
have e4 := @pi_Pp [realFieldType of R] (md m) A Q Hs (mReset m) nd y tm dl inst (mPinf m) pP q0 pQ Rp N0 pf_first.
have e5 := @pi_vS [realFieldType of R] (md m) A Q Hs (mReset m) nd y tm dl inst (mPinf m) pP q0 pQ Rp ys N0 pf_first.
split; first exact: e3. split; first exact: e4. split; first exact: e1. split; first exact: e2.
by case: b => //; exact: (congr1 Some e5).
Qed.

Hypothesis nk : noisy_integrated k.
Hypothesis db : distinct_begins X.

Lemma pf_unit i : (i.+1 < K)%N -> o_Pp (nth (0, 0, 0, 0, 0, 0)%R o i.+1) \in unitmx.
Proof.
move=> hi; have [pP q0 pQ Rp ys] := pf_facts.
have wd := kernel_wide wf nk.
have pQ0 : psdmx (Q 0%R 0%R) by rewrite q0; exact: psd0.
apply: pd_unit.
apply: (@ip_pd [realFieldType of R] (md m) A Q Hs (mReset m) nd y tm dl inst (mPinf m)
  (wd_P wd) (fun x => wd_A wd x) pQ0 pQ Rp _ i.+1 hi) => j v hj e.
apply: (wd_Q wd).
- by apply: (fi_insts ve); apply: obs_lt; apply: ltnW.
- have le := @t_le tm dl _ _ (leqnSn j) hj.
  case: (Rle_lt_or_eq_dec _ _ le) => [|eq]; first by rewrite -/t; toR; lra.
  have e' := ends_first (leqnSn j) hj eq e.
  have i1 := is_start (ltnW hj) e; have i2 := is_start hj e'.
  have h1 := obs_lt dl (ltnW hj); have h2 := obs_lt dl hj.
  have := db h1 h2; rewrite !fi_exposure // -!(st_begin _ inst) //.
  rewrite -i1 -i2 => /(_ eq) h; have : j = j.+1 by rewrite {1}i1 h -i2.
  by move/eqP; rewrite eqn_leq ltnn andbF.
- exact: (fi_step sk hj).
Qed.

Lemma pf_run b : int_par_run p y b = int_run s y b.
Proof.
have [pP q0 pQ Rp ys] := pf_facts.
exact: (@int_par_conditionE [realFieldType of R] (md m) A Q Hs (mReset m) nd y tm dl inst (mPinf m)
  pP q0 pQ Rp ys N0 pf_first pf_unit b).
Qed.
End Run.

(** ** The two solvers as gp.py sees them *)
Lemma integrated_processP k X diag mean :
  size (variances diag (num_coords X)) = num_coords X -> gp_integrated k ->
  int_init k X = None ->
  gaussian_process smolgp_ops k X diag mean (SolverClass ParallelIntegratedStateSpaceSolver)
  = (k' <-- assign_unique_kernel_names k ;;
     inr (@Gp k' X (if mean is Some f then f else fun _ => 0%R)
            (map (if mean is Some f then f else fun _ => 0%R) (coord_list X)) None
            (variances diag (num_coords X))
            (Solver ParallelIntegratedStateSpaceSolver k X (variances diag (num_coords X))) None)).
Proof.
move=> hd ik hX; rewrite /gaussian_process /gp_init /=.
case e: (assign_unique_kernel_names k) => [//|k'] /=.
have tX : is_tuple X by case: X hX {hd} => //= t; case: ifP.
rewrite (unique_integrated e) ik tX /= size_map size_coord_list broadcast_variances //=.
by rewrite hX.
Qed.

Section Same.
Variables (k : kernel) (tm dl : seq R) (inst : seq nat) (diag : option farray) (mean : option (coord -> R)).
Variable (y : seq R).
Let X := CTriple tm dl inst.
Hypothesis wf : wf_integrated k.
Hypothesis ve : valid_exposures (instruments k) X diag y.
Hypothesis sk : exposure_steps_kept k X.
Hypothesis fo : opens_first X.
Hypothesis tr : transition_raises true k = None.
Let N := size tm.
Let nd := variances diag N.
Let s := Solver IntegratedStateSpaceSolver k X nd.
Let p := Solver ParallelIntegratedStateSpaceSolver k X nd.
Variables (gs gp : gp).
Hypothesis hs : gaussian_process smolgp_ops k X diag mean (SolverClass IntegratedStateSpaceSolver) = inr gs.
Hypothesis hp : gaussian_process smolgp_ops k X diag mean (SolverClass ParallelIntegratedStateSpaceSolver) = inr gp.

Lemma wide_dim k0 : wf_integrated k0 -> transition_raises true k0 = None -> (1 < md (denote k0))%N.
Proof.
elim: k0 => // k1 IH1 k2 IH2 [w1 w2] /=.
by case e: (transition_raises true k1) => [//|] _; apply: ltn_addr; apply: IH1.
Qed.

Lemma int_par_guard_inr B (a : B) : int_par_guard p a = inr a.
Proof.
rewrite /int_par_guard /= tr /sdim_of /=.
by case: eqP (wide_dim wf tr) => // ->.
Qed.
Lemma int_seq_inr B (a : B) : traced_transition s a = inr a.
Proof. by rewrite /traced_transition /= wf_integrated_raises. Qed.

Let mf := if mean is Some f then f else (fun _ : coord => 0%R).
Lemma gpsE : exists k', assign_unique_kernel_names k = inr k' /\
  gs = @Gp k' X mf (map mf (coord_list X)) None nd s None /\
  gp = @Gp k' X mf (map mf (coord_list X)) None nd p None.
Proof.
move: hs hp; rewrite integrated_processE ?integrated_processP ?(ve_d ve) ?wf_integrated_is //; last by right.
by case e: (assign_unique_kernel_names k) => [//|k'] /= [<-] [<-]; exists k'.
Qed.

Lemma int_par_log_probability :
  gp_log_probability smolgp_ops gp y = gp_log_probability smolgp_ops gs y.
Proof.
have [k' [_ [-> ->]]] := gpsE; rewrite /gp_log_probability [g_solver _]/= [in RHS]/g_solver.
rewrite [sv_kind p]/= [sv_kind s]/=.
have -> : so_kalman (smolgp_ops ParallelIntegratedStateSpaceSolver) p y true
    = inr (kalman_of (int_par_run p y true)) by exact: int_par_guard_inr.
have -> : so_kalman (smolgp_ops IntegratedStateSpaceSolver) s y true
    = inr (kalman_of (int_run s y true)) by exact: int_seq_inr.
have [_ [_ [_ [_ e]]]] := pf_kalman wf ve sk fo true.
by rewrite /ebind /kalman_of /kr_vS e.
Qed.

Hypothesis nk : noisy_integrated k.
Hypothesis db : distinct_begins X.
Let r := results_of (int_state_coords s) (int_run s y true).

Lemma int_same_condition : so_condition (smolgp_ops ParallelIntegratedStateSpaceSolver) p y true = inr r.
Proof.
rewrite -[LHS]/(int_par_solver_condition p y true) /int_par_solver_condition int_par_guard_inr.
by rewrite (pf_run wf ve sk fo nk db).
Qed.

Lemma int_par_gp_condition comp :
  match gp_condition smolgp_ops gs y None comp, gp_condition smolgp_ops gp y None comp with
  | inl e, inl e' => e = e'
  | inr (lp, c), inr (lp', c') =>
      lp = lp' /\ g_X c = g_X c' /\ g_mean c = g_mean c' /\ g_var c = g_var c' /\
      forall Xt y' full comp rv,
        gp_predict smolgp_ops c Xt y' full comp rv = gp_predict smolgp_ops c' Xt y' full comp rv
  | _, _ => False
  end.
Proof.
have [k' [ek [-> ->]]] := gpsE.
have ii : gp_integrated k' by rewrite (unique_integrated ek) wf_integrated_is.
have h1 : so_condition (smolgp_ops IntegratedStateSpaceSolver) s y true = inr r := int_seq_inr _.
rewrite (gp_condition_int (kd:=IntegratedStateSpaceSolver) mf (map mf (coord_list X)) isT h1 (erefl _) (erefl _) ii).
rewrite (gp_condition_int (kd:=ParallelIntegratedStateSpaceSolver) mf (map mf (coord_list X)) isT
  int_same_condition (erefl _) (erefl _) ii).
case: (assign_unique_kernel_names k') => [//|k''].
rewrite [sdim_of s]/= [sdim_of p]/=.
rewrite /ebind; case: (project_at_data _ _) => w1 va; cbv beta iota zeta delta [fst snd].
case: w1 => [x|mu]; first by [].
refine (conj erefl (conj erefl (conj erefl (conj erefl _)))).
by move=> Xt y' full comp' rv; rewrite !predict_statesE.
Qed.
End Same.
