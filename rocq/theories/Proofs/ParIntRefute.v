(** Concrete runs of the parallel integrated solver: one where it agrees with the sequential one,
    one where the first exposure has length 0 and it does not. *)
From Coq Require Import Reals String Lra.
From mathcomp Require Import all_ssreflect all_algebra.
From Verif.Prelude Require Import Rstruct Psd.
From Verif.Spec Require Import Gp WfKernel Cov CovOf LogNormal Data IntCov WfIntegrated Exposures Smoothable FirstOpen.
From Verif.Model Require Import Array Jax Ssm Sequential Parallel BaseKernels IntegratedKernels Kernel Integrated
  Frontend SequentialOps Gp.
From Verif.Proofs Require Import GpExt AssocScan FilterElem ParStep ParInt ParIntFront Leaves Fit LagInt KernelProps
  FitExample IntegratedThms IntBook FitInt IntThms IntExample FitIntCond IntCondThms IntNarrowThms.
Set Implicit Arguments.
Unset Strict Implicit.
Unset Printing Implicit Defensive.
Local Open Scope R_scope.
Import GRing.Theory.

Definition k_pint : kernel := Sum (IntegratedMatern52 2 1 2 "a") (IntegratedMatern32 1 3 2 "b").
Lemma k_pint_wf : wf_integrated k_pint.
Proof. by rewrite /=; do 2!split=> //; toR; lra. Qed.
Lemma k_pint_names : names_ok k_pint.
Proof. by left=> /=; split; [move=> [h|[]]|split]. Qed.
Lemma X_int_first : opens_first X_int.
Proof. exists 1%N; split=> // -[|[|[|[|j]]]] //= _; rewrite /begin /finish /=; toR; lra. Qed.
Lemma X_int_distinct : distinct_begins X_int.
Proof.
by case=> [|[|[|[|i]]]] // [|[|[|[|j]]]] // _ _; rewrite /begin /finish /=; toR; lra.
Qed.

Lemma int_par_example : exists gs gp lp c lp' c',
  gaussian_process smolgp_ops k_pint X_int diag_int None (SolverClass IntegratedStateSpaceSolver) = inr gs /\
  gaussian_process smolgp_ops k_pint X_int diag_int None (SolverClass ParallelIntegratedStateSpaceSolver) = inr gp /\
  gp_condition smolgp_ops gs y_int None None = inr (lp, c) /\
  gp_condition smolgp_ops gp y_int None None = inr (lp', c').
Proof.
have hs : default_integrated_solver (SolverClass IntegratedStateSpaceSolver) by right.
have [gs hgs] := int_defined k_pint_wf None hs X_int_valid k_pint_names.
have [lp [c hc]] := int_condition_defined k_pint_wf X_int_valid hs hgs k_pint_names ltac:(by []).
have [gp hgp] : exists gp, gaussian_process smolgp_ops k_pint X_int diag_int None
    (SolverClass ParallelIntegratedStateSpaceSolver) = inr gp.
  move: hgs; rewrite integrated_processE // integrated_processP //.
  by case: (assign_unique_kernel_names k_pint) => [//|k'] /= _; eexists.
have := int_par_gp_condition k_pint_wf X_int_valid (plain_steps (X:=X_int) k_pint_wf (conj I I)) X_int_first
  erefl hgs hgp (conj I I) X_int_distinct None.
rewrite hc; case hc': (gp_condition smolgp_ops gp y_int None None) => [//|[lp' c']] _.
by exists gs, gp, lp, c, lp', c'.
Qed.

(** ** Two exposures of length 0 at times 0 and 1, and a cosine of period 1 *)
Definition X_zero : coords := CTriple [:: 0; 1] [:: 0; 0] [:: 0; 0]%N.
Lemma X_zero_valid : valid_exposures 2 X_zero (Some (Vector [:: 1; 1])) [:: 0; 0].
Proof.
split=> //.
- by case=> [|[|i]] //= _; toR; lra.
- by case=> [|[|i]].
- by case=> [|[|i]] // [|[|j]] //= _ _; rewrite /begin /finish /=; toR; lra.
- by case=> [|[|i]] //= _; toR; lra.
Qed.
Lemma X_zero_distinct : distinct_begins X_zero.
Proof. by case=> [|[|i]] // [|[|j]] // _ _; rewrite /begin /finish /=; toR; lra. Qed.

Section Arrays.
Local Open Scope ring_scope.
Variable F : realFieldType.
Lemma zero_sort : @sortidx F [:: 0; 1] [:: 0; 0] = [:: 1; 0; 3; 2]%N.
Proof.
have tu : @t_unsorted F [:: 0; 1] [:: 0; 0] = [:: 0; 0; 1; 1].
  by rewrite /t_unsorted /= !mul0r !subr0 !addr0.
have le i j : (i < 4)%N -> (j < 4)%N -> @state_le F [:: 0; 1] [:: 0; 0] i j
    = ((i./2 < j./2)%N || ((i./2 == j./2) && (odd j <= odd i)%N)).
  have l01 : ((0 : F) < 1) = true by apply: Num.Theory.ltr01.
  have l10 : ((1 : F) < 0) = false by apply: Num.Theory.ltr10.
  have e01 : ((0 : F) == 1) = false by rewrite eq_sym; apply: oner_eq0.
  have e10 : ((1 : F) == 0) = false by apply: oner_eq0.
  rewrite /state_le tu.
  by case: i j => [|[|[|[|i]]]] // [|[|[|[|j]]]] // _ _ /=;
    rewrite ?(eqxx, Order.POrderTheory.ltxx, l01, l10, e01, e10).
rewrite /sortidx tu; move: (@state_le F [:: 0; 1] [:: 0; 0]) le => f le; rewrite [size _]/=.
by rewrite /sort /= !le //= !le //= !le.
Qed.
Lemma zero_t : @t_states F [:: 0; 1] [:: 0; 0] = [:: 0; 0; 1; 1].
Proof. by rewrite /t_states zero_sort /t_unsorted /= !mul0r !subr0 !addr0. Qed.
Lemma zero_obs : @obsid F [:: 0; 1] [:: 0; 0] = [:: 0; 0; 1; 1]%N.
Proof. by rewrite /obsid zero_sort. Qed.
Lemma zero_state : @stateid F [:: 0; 1] [:: 0; 0] = [:: 1; 0; 1; 0]%N.
Proof. by rewrite /stateid zero_sort. Qed.

Variables (d : nat) (A Q : F -> F -> 'M[F]_d) (H : 'M[F]_(1, d)) (RESET : nat -> 'M[F]_d) (P0 : 'M[F]_d).
Hypothesis A0 : A 0 0 = 1%:M.
Hypothesis Q0 : Q 0 0 = 0.
Hypothesis pP0 : psdmx P0.
Hypothesis pQ : psdmx (Q 0 1).
Hypothesis HA : H *m A 0 1 = H.
Hypothesis HR : H *m RESET 0 = H.
Hypothesis HQ : H *m Q 0 1 *m H^T = 0.
Let t := @t_states F [:: 0; 1] [:: 0; 0].
Let obs := @obsid F [:: 0; 1] [:: 0; 0].
Let state := @stateid F [:: 0; 1] [:: 0; 0].
Let c := int_par_condition A Q [:: H; H] RESET [:: 1; 1] [:: 0; 0] t obs
   (@instid_states F [:: 0; 1] [:: 0; 0] [:: 0; 0]%N) state P0 true.
Let S_ := H *m P0 *m H^T + 1%:M.

Lemma zero_par : c_vS c = Some ([:: 0; 0], [:: S_; S_]).
Proof.
rewrite /c /int_par_condition [LHS]/=.
set es := parallel_integrated_kalman_filter _ _ _ _ _ _ _ _ _ _ _.
have esE : es = prefixes (@filter_combine F d) (int_filter_params A Q [:: H; H] RESET [:: 1; 1] [:: 0; 0]
   t obs (@instid_states F [:: 0; 1] [:: 0; 0] [:: 0; 0]%N) state P0).
  apply: (@pi_esE F d A Q [:: H; H] RESET [:: 1; 1] [:: 0; 0] [:: 0; 1] [:: 0; 0] [:: 0; 0]%N P0) => //.
  - rewrite zero_t => -[|[|[|i]]] //= _; rewrite ?subrr ?subr0 ?Q0 //; exact: psd0.
  - by case=> [|[|i]] //= _; apply: Num.Theory.ltr01.
set xs := int_filter_params _ _ _ _ _ _ _ _ _ _ _ in esE.
have sxs : size xs = 4%N by rewrite /= size_mkseq /t zero_t.
have x1 : nth (FElem 0 0 0 0 0) xs 1 = pred_elem (RESET 0) 0.
  rewrite /xs /int_filter_params /instid_states -/obs /obs /t /state zero_t zero_obs zero_state.
  by rewrite /diff /= /int_start_params subrr A0 Q0 mulmx1 mulmx0 mul0mx.
have e1 : nth (FElem 0 0 0 0 0) es 1 = filter_combine (int_first_params (A 0 0) (RESET 0) 0 P0)
     (pred_elem (RESET 0) 0).
  rewrite esE nth_prefixesS ?sxs // x1; congr filter_combine.
  by rewrite /xs /int_filter_params /instid_states -/obs /obs zero_obs.
have [eb eC] : fb (nth (FElem 0 0 0 0 0) es 1) = 0 /\ fC (nth (FElem 0 0 0 0 0) es 1) = RESET 0 *m (RESET 0 *m P0 *m (RESET 0)^T) *m (RESET 0)^T.
  rewrite e1.
  have [-> ->] := @combine_left_bC F d (int_first_params (A 0 0) (RESET 0) 0 P0)
     (state_elem 0 (RESET 0 *m P0 *m (RESET 0)^T)) (pred_elem (RESET 0) 0)
     ltac:(by rewrite /= A0 mulmx0) ltac:(by rewrite /= A0 mulmx1).
  rewrite pred_combine; last exact: psd0.
  - by rewrite /= mulmx0 addr0.
  - exact: psd_conj.
have sz : size es = 4%N by rewrite esE size_prefixes.
rewrite /int_calc_vS /state zero_state /nonzero_ones /=.
rewrite /obs zero_obs /int_predictions /t zero_t /=.
rewrite subr0 !(nth_map (FElem 0 0 0 0 0)) ?sz // eb eC A0 Q0 !mulmx0 !subr0.
have z : (0 : F)%:M = 0 :> 'M[F]_1 by exact: raddf0.
rewrite z trmx1 mul1mx mulmx1 addr0; congr (Some (_, [:: _; _])).
rewrite mulmxDr mulmxDl HQ addr0; congr (_ + _).
set M := RESET 0 *m (RESET 0 *m P0 *m (RESET 0)^T) *m (RESET 0)^T.
have -> : H *m (A 0 1 *m M *m (A 0 1)^T) *m H^T = (H *m A 0 1) *m M *m (H *m A 0 1)^T.
  by rewrite trmx_mul !mulmxA.
have -> : (H *m A 0 1) *m M *m (H *m A 0 1)^T
    = (H *m A 0 1 *m RESET 0 *m RESET 0) *m P0 *m (H *m A 0 1 *m RESET 0 *m RESET 0)^T.
  by rewrite /M !trmx_mul !mulmxA.
by rewrite HA !HR.
Qed.
End Arrays.

Definition k_zero : kernel := IntegratedCosine 1 1 2 "c".
Lemma k_zero_wf : wf_integrated k_zero.
Proof. by split=> //; split; toR; lra. Qed.

Lemma ord2 (P : 'I_2 -> Prop) : P 0%R -> P 1%R -> forall i, P i.
Proof. by move=> h0 h1 [[|[|i]] hi] //; [move: h0|move: h1]; congr P; apply: val_inj. Qed.

Lemma zero_facts : let m := denote k_zero in let H := mH m (CX 0 0 0) in
  [/\ H = mH m (CX 1 0 0), (H *m mA m (CT 0) (CT 1))%R = H, (H *m mReset m 0)%R = H,
      (H *m mQ m (CT 0) (CT 1) *m H^T)%R = 0%R & (H *m mPinf m *m H^T)%R = 1%:M%R].
Proof.
move=> m H; pose h : 'M[R]_(1, 2) := mat 1 2 [:: [:: 1; 0]].
have F0 : Rltb 0 0 = false by case: (RltbP 0 0) => // e; exfalso; lra.
have H0 : H = row_mx h (0 : 'M[R]_(1, 2))%R.
  rewrite /H /= F0; apply/matrixP=> i j; rewrite !mxE; case: splitP => l -> ; rewrite !mxE ?ord1 //.
  by elim/ord2: l.
have h1 : (h *m h^T)%R = 1%:M%R.
  by apply/matrixP=> i j; rewrite !ord1 !mxE !big_ord_recl big_ord0 !mxE /=; toR; ring.
split.
- by rewrite /H /= F0.
- rewrite H0 /= mul_row_block !mul0mx mulmx0 !addr0; congr row_mx.
  have -> : 2 * PI / 1 * lag (CT 0) (CT 1) = 2 * PI by rewrite /lag /=; toR; field.
  rewrite cos_2PI sin_2PI; apply/matrixP=> i j; rewrite !ord1 !mxE !big_ord_recl big_ord0 !mxE /=.
  by elim/ord2: j => /=; toR; ring.
- rewrite H0 /=; apply/matrixP=> i j; rewrite mul_mx_diag !mxE /slot.
  case: splitP => l el; rewrite !mxE ?mul0r //.
  have -> : ((j : nat) == minn (2 + 0) (2 + 2).-1) = false by rewrite el; case: (l) => [[|[|?]] ?].
  by rewrite mulr1.
- rewrite H0 /= tr_row_mx mul_row_block mul_row_col !mul0mx mulmx0 !addr0 mul0mx.
  by rewrite trmx0 mulmx0 addr0.
- rewrite H0 /= tr_row_mx mul_row_block mul_row_col !mul0mx mulmx0 !addr0 mul0mx addr0.
  rewrite -h1; apply/matrixP=> i j; rewrite !ord1 /smul !mxE !big_ord_recl !big_ord0 !mxE /= !big_ord_recl !big_ord0 !mxE /= /sq; toR; ring.
Qed.

Lemma det2 (F : realFieldType) (K : nat -> nat -> F) (rs : seq F) :
  (gpd 2 K rs = (K 0%N 0%N + rs`_0) * (K 1%N 1%N + rs`_1) - K 0%N 1%N * K 1%N 0%N)%R.
Proof.
rewrite /gpd (expand_det_row _ ord0) !big_ord_recl big_ord0 addr0 /cofactor !det_mx11.
rewrite !mxE /= !addn0 expr0 expr1 !mul1r !mulr1n !mulr0n !addr0 mulN1r mulrN.
by [].
Qed.

Lemma zero_kap i j : (i < 2)%N -> (j < 2)%N ->
  integrated_cov (Cosine 1 1 "c") (nth (CT 0) (coord_list X_zero) i) (nth (CT 0) (coord_list X_zero) j) = 1.
Proof.
have nl : ~ 0 < 0 by lra.
have c0 : cov_cosine 1 1 (Rabs 0) = 1.
  by rewrite Rabs_R0 /cov_cosine Rmult_0_r; have -> : 0 / 1 = 0 by [lra|]; rewrite cos_0; toR; lra.
have c1 : cov_cosine 1 1 (Rabs 1) = 1.
  by rewrite Rabs_R1 /cov_cosine; have -> : - 2 * PI * 1 / 1 = - (2 * PI) by [field|]; rewrite cos_neg cos_2PI; toR; lra.
have e00 : 0 - 0 = 0 by lra. have e01 : 0 - 1 = - 1 by lra. have e10 : 1 - 0 = 1 by lra.
have e11 : 1 - 1 = 0 by lra.
case: i j => [|[|i]] // [|[|j]] // _ _; rewrite /integrated_cov /mean_cov !emP //= ?e00 ?e01 ?e10 ?e11 //.
by rewrite Rabs_Ropp.
Qed.
Lemma zero_seq : log_normal (CT 0) (integrated_cov (Cosine 1 1 "c")) (coord_list X_zero)
    (variances (Some (Vector [:: 1; 1])) (num_coords X_zero)) [:: 0; 0]
  = - (1 / 2) * (0 + ln 3 + 2 * ln (2 * PI)).
Proof.
rewrite /log_normal gp_detE gp_quadE.
have -> : size (coord_list X_zero) = 2%N by [].
rewrite det2 !zero_kap //.
have -> : gpq 2 (fun i j => integrated_cov (Cosine 1 1 "c")
   (nth (CT 0) (coord_list X_zero) i) (nth (CT 0) (coord_list X_zero) j))
   (variances (Some (Vector [:: 1; 1])) (num_coords X_zero)) [:: 0; 0] = 0.
  have c0 : col_of 2 [:: 0; 0] = 0%R :> 'cV[R]_2.
    by apply/matrixP=> i j; rewrite !mxE; elim/ord2: i.
  by rewrite /gpq /post_mean c0 mulmx0 mxE.
rewrite /=; congr (_ * (_ + ln _ + _)); toR; lra.
Qed.
Lemma zero_lp : compute_log_prob [:: 0; 0]%R [:: 1%:M + 1%:M; 1%:M + 1%:M]%R
  = Fin (- (1 / 2) * (0 + ln 4 + 2 * ln (2 * PI))).
Proof.
rewrite compute_log_probE //; last by case=> [|[|i]] //= _; rewrite !mxE; toR; lra.
congr (Fin (_ * (_ + ln _ + _))); rewrite !big_ord_recl big_ord0 /= !mxE /=; toR.
- by rewrite /GRing.exp /=; toR; field; lra.
- lra.
Qed.

Lemma int_par_refuted : exists k X diag y gs gp,
  [/\ wf_integrated k, plain_integrated k, transition_raises true k = None, distinct_begins X &
      valid_exposures (instruments k) X diag y] /\
  gaussian_process smolgp_ops k X diag None (SolverClass IntegratedStateSpaceSolver) = inr gs /\
  gaussian_process smolgp_ops k X diag None (SolverClass ParallelIntegratedStateSpaceSolver) = inr gp /\
  gp_log_probability smolgp_ops gp y <> gp_log_probability smolgp_ops gs y.
Proof.
have hs : default_integrated_solver (SolverClass IntegratedStateSpaceSolver) by right.
have nk : names_ok k_zero by left; split.
have [gs hgs] := int_defined k_zero_wf None hs X_zero_valid nk.
have [gp hgp] : exists gp, gaussian_process smolgp_ops k_zero X_zero (Some (Vector [:: 1; 1])) None
    (SolverClass ParallelIntegratedStateSpaceSolver) = inr gp.
  move: hgs; rewrite integrated_processE // integrated_processP //.
  by case: (assign_unique_kernel_names k_zero) => [//|k'] /= _; eexists.
exists k_zero, X_zero, (Some (Vector [:: 1; 1])), [:: 0; 0], gs, gp.
split; first by split; [exact: k_zero_wf|by []|by []|exact: X_zero_distinct|exact: X_zero_valid].
split=> //; split=> //.
have sk := plain_steps (X:=X_zero) k_zero_wf I.
rewrite (int_log_probability k_zero_wf (erefl _) hs X_zero_valid sk hgs).
have [k' [_ [_ ->]]] := gpsE k_zero_wf X_zero_valid hgs hgp.
rewrite /gp_log_probability [g_solver _]/= [sv_kind _]/=.
set p := Solver _ _ _ _.
have -> : so_kalman (smolgp_ops ParallelIntegratedStateSpaceSolver) p [:: 0; 0] true
    = inr (kalman_of (int_par_run p [:: 0; 0] true)).
  by rewrite -[LHS]/(int_par_kalman p [:: 0; 0] true) /int_par_kalman /int_par_guard.
have [a0 q0] := kernel_at0 k_zero_wf.
have {}q0 := q0 (plain_kept 0 k_zero_wf I).
have w := WindowKernel.kernel_wincov k_zero_wf (erefl _).
have [h1 h2 h3 h4 h5] := zero_facts.
have pP := WindowCov.wc_P w.
have pQ := WindowCov.wc_Q w (Rle_0_1) (plain_kept 1 k_zero_wf I).
have e := @zero_par [realFieldType of R] (md (denote k_zero)) (fun a b => mA (denote k_zero) (CT a) (CT b))
  (fun a b => mQ (denote k_zero) (CT a) (CT b)) (mH (denote k_zero) (CX 0 0 0)) (mReset (denote k_zero))
  (mPinf (denote k_zero)) a0 q0 pP pQ h2 h3 h4.
have eR : c_vS (int_par_run p [:: 0; 0] true) = Some ([:: 0; 0], [:: 1%:M + 1%:M; 1%:M + 1%:M])%R.
  rewrite h5 in e; rewrite -[RHS]e.
  have hH : map (mH (denote k_zero)) (coord_list X_zero)
      = [:: mH (denote k_zero) (CX 0 0 0); mH (denote k_zero) (CX 0 0 0)].
    by rewrite -[LHS]/[:: mH (denote k_zero) (CX 0 0 0); mH (denote k_zero) (CX 1 0 0)] -h1.
  by rewrite /int_par_run -[sv_kernel p]/k_zero -[sv_X p]/X_zero hH.
rewrite /ebind /kalman_of /kr_vS eR.
rewrite zero_lp zero_seq => -[e2].
have : ln 4 = ln 3 by move: (ln 4) (ln 3) (ln (2 * PI)) e2 => a b c; lra.
by move/ln_inv; lra.
Qed.

(** ** The two theorems for coordinates in any form *)
Lemma int_par_lp k X diag mean y gs gp : wf_integrated k -> valid_exposures (instruments k) X diag y ->
  exposure_steps_kept k X -> opens_first X -> transition_raises true k = None ->
  gaussian_process smolgp_ops k X diag mean (SolverClass IntegratedStateSpaceSolver) = inr gs ->
  gaussian_process smolgp_ops k X diag mean (SolverClass ParallelIntegratedStateSpaceSolver) = inr gp ->
  gp_log_probability smolgp_ops gp y = gp_log_probability smolgp_ops gs y.
Proof.
move=> wf ve sk fo tr hs hp; have [tm [dl [inst e]]] := triple ve; subst X.
exact: (int_par_log_probability wf ve sk fo tr hs hp).
Qed.

Lemma int_par_cond k X diag mean y gs gp comp : wf_integrated k -> valid_exposures (instruments k) X diag y ->
  exposure_steps_kept k X -> opens_first X -> transition_raises true k = None ->
  noisy_integrated k -> distinct_begins X ->
  gaussian_process smolgp_ops k X diag mean (SolverClass IntegratedStateSpaceSolver) = inr gs ->
  gaussian_process smolgp_ops k X diag mean (SolverClass ParallelIntegratedStateSpaceSolver) = inr gp ->
  match gp_condition smolgp_ops gs y None comp, gp_condition smolgp_ops gp y None comp with
  | inl e, inl e' => e = e'
  | inr (lp, c), inr (lp', c') =>
      lp = lp' /\ g_X c = g_X c' /\ g_mean c = g_mean c' /\ g_var c = g_var c' /\
      forall Xt y' full comp rv,
        gp_predict smolgp_ops c Xt y' full comp rv = gp_predict smolgp_ops c' Xt y' full comp rv
  | _, _ => False
  end.
Proof.
move=> wf ve sk fo tr nk db hs hp; have [tm [dl [inst e]]] := triple ve; subst X.
exact: (int_par_gp_condition wf ve sk fo tr hs hp nk db).
Qed.

(** ** IntegratedExp *)
Definition k_iexp : kernel := IntegratedExp 1 1 2 "e".
Lemma k_iexp_wf : wf_integrated k_iexp.
Proof. by rewrite /=; do 2!split=> //; toR; lra. Qed.
Lemma int_par_exp_refuted : exists k X diag y gs gp,
  [/\ wf_integrated k, plain_integrated k, opens_first X, distinct_begins X &
      valid_exposures (instruments k) X diag y] /\
  gaussian_process smolgp_ops k X diag None (SolverClass IntegratedStateSpaceSolver) = inr gs /\
  gaussian_process smolgp_ops k X diag None (SolverClass ParallelIntegratedStateSpaceSolver) = inr gp /\
  (exists lp, gp_log_probability smolgp_ops gs y = inr lp) /\
  (exists e, gp_log_probability smolgp_ops gp y = inl e).
Proof.
have hs : default_integrated_solver (SolverClass IntegratedStateSpaceSolver) by right.
have nok : names_ok k_iexp by left; split; [case|].
have ve : valid_exposures (instruments k_iexp) X_int diag_int y_int := X_int_valid.
have [gs hgs] := int_defined k_iexp_wf None hs ve nok.
have [gp hgp] : exists gp, gaussian_process smolgp_ops k_iexp X_int diag_int None
    (SolverClass ParallelIntegratedStateSpaceSolver) = inr gp.
  move: hgs; rewrite integrated_processE // integrated_processP //.
  by case: (assign_unique_kernel_names k_iexp) => [//|k'] /= _; eexists.
exists k_iexp, X_int, diag_int, y_int, gs, gp.
split; first by split; [exact: k_iexp_wf|by []|exact: X_int_first|exact: X_int_distinct|exact: ve].
split=> //; split=> //; split.
  have sk := plain_steps (X:=X_int) k_iexp_wf I.
  by eexists; exact: (int_log_probability k_iexp_wf (erefl _) hs ve sk hgs).
have [k' [_ [_ ->]]] := gpsE k_iexp_wf ve hgs hgp.
exists TypeError; rewrite /gp_log_probability [g_solver _]/= [sv_kind _]/=.
set p := Solver _ _ _ _.
have -> : so_kalman (smolgp_ops ParallelIntegratedStateSpaceSolver) p y_int true = inl TypeError.
  by rewrite -[LHS]/(int_par_kalman p y_int true) /int_par_kalman /int_par_guard.
by [].
Qed.
