(** Conditioning with the sequential integrated solver. *)
From Coq Require Import Reals String Lra.
From mathcomp Require Import all_ssreflect all_algebra.
From Verif.Prelude Require Import Rstruct Psd.
From Verif.Spec Require Import Gp WfKernel CovOf LogNormal Data IntCov WfIntegrated Exposures Smoothable.
From Verif.Model Require Import Array Jax Ssm Sequential BaseKernels Kernel Integrated Frontend
  SequentialOps Gp.
From Verif.Proofs Require Import GpExt Names Rename Fit FitAny IntBook MarkovChain IntExact LagInt WindowCov
  WindowKernel IntGram FitInt IntOrder IntWide IntPd.
Set Implicit Arguments.
Unset Strict Implicit.
Unset Printing Implicit Defensive.
Import Order.TTheory GRing.Theory Num.Theory.

(** What condition stores (integrated solvers). *)
Definition int_states d (tm dl : seq R) (inst : seq nat) (r : results d) : cstates d :=
  {| cs_X := CTriple tm dl inst; cs_t := @t_states [realFieldType of R] tm dl; cs_instid := inst;
     cs_obsid := @obsid [realFieldType of R] tm dl; cs_stateid := @stateid [realFieldType of R] tm dl;
     cs_mp := r_mp r; cs_Pp := r_Pp r; cs_mf := r_mf r; cs_Pf := r_Pf r;
     cs_ms := r_ms r; cs_Ps := r_Ps r |}.

Lemma project_int d tm dl inst (r : results d) (H : coord -> 'M[R]_(1, d)) :
  project_at_data (int_states tm dl inst r) H
  = (squeeze (mkseq (fun i => proj_mean (H (CX (nth 0%R tm i) (nth 0%R dl i) (nth 0%N inst i)))
                (nth 0%R (r_ms r) (@en [realFieldType of R] tm dl i))) (size tm)),
     squeeze (mkseq (fun i => proj_var (H (CX (nth 0%R tm i) (nth 0%R dl i) (nth 0%N inst i)))
                (nth 0%R (r_Ps r) (@en [realFieldType of R] tm dl i))) (size tm))).
Proof.
rewrite /project_at_data (@data_indexE _ (int_states tm dl inst r) tm dl inst) //=.
congr (squeeze _, squeeze _); apply: eq_mkseq_in => i hi; rewrite nth_mkseq //;
  by rewrite -map_comp (nth_map 0%N) ?size_iota //= nth_iota.
Qed.

Section Condition.
Variables (kd : solver_kind) (k k' : kernel) (tm dl : seq R) (inst : seq nat).
Variables (mf : coord -> R) (mv nd : seq R).
Let X := CTriple tm dl inst.
Let s := Solver kd k X nd.
Let g := @Gp k' X mf mv None nd s None.
Variables (y : seq R) (r : results (sdim_of s)) (v S_ : seq 'M[R]_1).
Hypothesis hk : is_integrated_kind kd.
Hypothesis hr : so_condition (smolgp_ops kd) s y true = inr r.
Hypothesis hvS : r_vS r = Some (v, S_).
Hypothesis ht : r_coords r = int_state_coords s.
Hypothesis ik : gp_integrated k'.

Lemma gp_condition_int comp :
  gp_condition smolgp_ops g y None comp
  = (k'' <-- assign_unique_kernel_names k' ;;
     let mv := project_at_data (int_states tm dl inst r) (Frontend.obs_row (sdim_of s) k' comp) in
     match mv.1 with
     | Scalar _ => inl IndexError
     | Vector m => inr (compute_log_prob v S_,
         @Gp k'' X (fun _ => 0%R) m (Some mv.2) nd s (Some (int_states tm dl inst r)))
     end).
Proof.
rewrite /gp_condition; move: (@project_at_data) => pj /=.
rewrite hr /= hvS /state_arrays hk ht /=.
rewrite /x_tmid /x_delta /x_inst /=.
rewrite -/(int_states tm dl inst r).
rewrite /gp_init; case e: (assign_unique_kernel_names k') => [//|k''] /=.
rewrite (unique_integrated e) ik /=.
case: (pj _ _ _).1 => [//|m] /=.
by rewrite only_for_refl.
Qed.

Let arr d (f : 'M[R]_(1, d) -> nat -> R) (H : coord -> 'M[R]_(1, d)) :=
  mkseq (fun i => f (H (CX (nth 0%R tm i) (nth 0%R dl i) (nth 0%N inst i)))
                    (@en [realFieldType of R] tm dl i)) (size tm).

Lemma gp_condition_shape lp c : denote k' = denote k ->
  gp_condition smolgp_ops g y None None = inr (lp, c) ->
  [/\ size tm <> 1%N, lp = compute_log_prob v S_ &
  exists k'', denote k'' = denote k' /\
  c = @Gp k'' X (fun _ => 0%R)
    (arr (fun h i => proj_mean h (nth 0%R (r_ms r) i)) (mH (denote k)))
    (Some (Vector (arr (fun h i => proj_var h (nth 0%R (r_Ps r) i)) (mH (denote k))))) nd s
    (Some (int_states tm dl inst r))].
Proof.
move=> ek; rewrite gp_condition_int.
case e2: (assign_unique_kernel_names k') => [//|k''].
rewrite project_int; move: (@int_states _ tm dl inst r) => cs /=.
case es: (squeeze _) => [//|mu] [<- <-].
have [-> sz] := squeeze_vec' es; rewrite size_mkseq in sz.
split=> //; exists k''; split; first exact: unique_denote e2.
rewrite squeeze_vec ?size_mkseq //.
have h f : arr f (Frontend.obs_row (sdim_of s) k' None) = arr f (mH (denote k)).
  by apply: eq_mkseq_in => i hi; rewrite (obs_row_total _ ek).
have := h (fun h i => proj_mean h (nth 0%R (r_ms r) i)); rewrite /arr => ->.
by have := h (fun h i => proj_var h (nth 0%R (r_Ps r) i)); rewrite /arr => ->.
Qed.

Lemma gp_condition_defined k'' : assign_unique_kernel_names k' = inr k'' -> size tm <> 1%N ->
  exists lp c, gp_condition smolgp_ops g y None None = inr (lp, c).
Proof.
move=> e2 n1; rewrite gp_condition_int e2.
rewrite project_int; move: (@int_states _ tm dl inst r) => cs /=.
rewrite squeeze_vec ?size_mkseq //; by do 2!eexists.
Qed.
End Condition.

Section Exact.
Variables (k b : kernel) (tm dl : seq R) (inst : seq nat) (diag : option farray) (y : seq R).
Let X := CTriple tm dl inst.
Let N := size tm.
Let K := N.*2.
Let nd := variances diag N.
Let m := denote k.
Hypothesis wf : wf_integrated k.
Hypothesis eb : base_kernel k = Some b.
Hypothesis ve : valid_exposures (instruments k) X diag y.
Hypothesis sk : exposure_steps_kept k X.
Hypothesis nk : noisy_integrated k.
Hypothesis so : smoothable X.
Let kern := integrated_cov b.
Let A := fun u v => mA m (CT u) (CT v).
Let Q := fun u v => mQ m (CT u) (CT v).
Let Hs := map (mH m) (coord_list X).
Let t := @t_states [realFieldType of R] tm dl.
Let obs := @obsid [realFieldType of R] tm dl.
Let st := @stateid [realFieldType of R] tm dl.
Let Xi i := CX (nth 0%R tm i) (nth 0%R dl i) (nth 0%N inst i).
Local Notation stn := (@IntBook.st [realFieldType of R] tm dl).
Local Notation enn := (@en [realFieldType of R] tm dl).
Let w := kernel_wincov wf eb.
Let o := integrated_kalman_filter A Q Hs (mReset m) nd y t obs inst st 0 (mPinf m).
Let step0 := fi_step0 ve sk.
Let step i (h : (i.+1 < K)%N) := fi_step sk h.
Let pP := win_psd_P w.
Let pQ0 := win_psd_Q0 w step0.
Let pQ i := @win_psd_Q _ _ _ _ w tm dl step i.
Let Rpos i (h : (i < N)%N) : (0 < nd`_i)%R := introT (RltP _ _) (fi_nd ve h).
Let N0 := fi_N0 ve.
Let wd := kernel_wide wf nk.

Lemma fc_start i : (i.+1 < K)%N -> nth 0%N st i = 0%N -> Rlt 0 (Rminus (nth 0%R t i.+1) (nth 0%R t i)).
Proof.
move=> hi e; have le := @t_le tm dl _ _ (leqnSn i) hi.
case: (Rle_lt_or_eq_dec _ _ le) => [|eq]; first by rewrite -/t; lra.
have e' := ends_first (leqnSn i) hi eq e.
have i1 := is_start (ltnW hi) e; have i2 := is_start hi e'.
have h1 := obs_lt dl (ltnW hi); have h2 := obs_lt dl hi.
have := sm_begins so h1 h2; rewrite !fi_exposure // -!(st_begin _ inst) //.
rewrite -i1 -i2 => /(_ eq) h; have : i = i.+1 by rewrite {1}i1 h -i2.
by move/eqP; rewrite eqn_leq ltnn andbF.
Qed.

Lemma fc_last : nth 0%N st K.-1 != 0%N.
Proof.
have K0 : (0 < K)%N by rewrite double_gt0.
have hK : (K.-1 < K)%N by rewrite prednK.
apply/negP=> /eqP e; have i1 := is_start hK e; have h1 := obs_lt dl hK.
have [i [hi /(_ _ h1)]] := sm_last so.
rewrite !fi_exposure // -(st_begin _ inst) // -i1 -(en_finish _ inst) //.
have := en_lt dl hi; rewrite -/N -/K => he.
have := @t_le tm dl (enn i) K.-1; rewrite -ltnS prednK // => /(_ he (leqnn _)).
by move=> h2 h3; have := Rlt_not_le _ _ h3.
Qed.

Lemma fc_full i v : (i.+1 < K)%N -> nth 0%N st i = 0%N ->
  ((mReset m (nth 0%N inst (nth 0%N obs i)))^T *m ((A 0 (nth 0 t i.+1 - nth 0 t i))^T *m v) = 0)%R ->
  (qf (Q 0 (nth 0 t i.+1 - nth 0 t i)) v = 0)%R -> v = 0%R.
Proof.
move=> hi e; apply: (wd_Q wd).
- by apply: (fi_insts ve); apply: obs_lt; apply: ltnW.
- exact: fc_start.
- exact: step.
Qed.

Let sm := integrated_rts_smoother A (mReset m) t obs inst st (map (@o_m _ _) o) (map (@o_P _ _) o)
     (map (@o_mp _ _) o) (map (@o_Pp _ _) o).

Lemma fc_smooth i : (i < K)%N -> let Sg := dcov N (fun i j => kern (Xi i) (Xi j)) nd in
  let C := @ie_C [realFieldType of R] (md m) A Q Hs (mReset m) tm dl inst (mPinf m) i in
  (nth (0, 0)%R sm i).1 = post_mean C Sg (col_of N y) /\
  (nth (0, 0)%R sm i).2 = post_cov (@ie_S [realFieldType of R] (md m) A Q (mReset m) tm dl inst (mPinf m) i) C Sg.
Proof.
move=> hi Sg C.
exact: (@ip_smooth [realFieldType of R] (md m) A Q Hs (mReset m) nd y tm dl inst (mPinf m)
  (wd_P wd) (fun x => wd_A wd x) pQ0 pQ Rpos fc_full N0 fc_last Sg (fi_Sg wf eb ve sk) i hi).
Qed.

Lemma fc_row i : (i < N)%N ->
  (mH m (Xi i) *m @ie_C [realFieldType of R] (md m) A Q Hs (mReset m) tm dl inst (mPinf m) (enn i))%R
  = (\row_(j < N) kern (Xi i) (Xi j))%R.
Proof.
move=> hi; apply/matrixP=> a j; rewrite (ord1 a) [RHS]mxE.
have := @win_gram _ _ _ _ w tm dl inst step0 step (fi_insts ve) (fi_lens ve) (fi_sep ve) i j hi (ltn_ord j).
rewrite -/(Xi i) -/(Xi j) /kern /integrated_cov => <-; rewrite -mulmxA [LHS]mxE [RHS]mxE; apply: eq_bigr => c _.
by rewrite [X in (_ * X)%R]mxE /ie_h /Hs (Hs_nth m dl inst).
Qed.
Lemma fc_var i : (i < N)%N ->
  (mH m (Xi i) *m @ie_S [realFieldType of R] (md m) A Q (mReset m) tm dl inst (mPinf m) (enn i) *m (mH m (Xi i))^T)%R
  = (kern (Xi i) (Xi i))%:M%R.
Proof.
move=> hi; apply/matrixP=> a c; rewrite (ord1 a) (ord1 c) [RHS]mxE eqxx mulr1n.
have := @win_gram _ _ _ _ w tm dl inst step0 step (fi_insts ve) (fi_lens ve) (fi_sep ve) i i hi hi.
by rewrite mcov_ge // T_refl mul1mx -/(Xi i) /kern /integrated_cov => <-.
Qed.

Lemma nth_exposure i : (i < N)%N -> nth (CT 0) (coord_list X) i = Xi i.
Proof. by move=> hi; apply: (fi_exposure dl inst hi). Qed.

Lemma fc_mean i : (i < N)%N ->
  proj_mean (mH m (Xi i)) (nth 0%R (unzip1 sm) (enn i))
  = gp_mean (CT 0) kern (coord_list X) nd y (Xi i).
Proof.
move=> hi; have hs : size sm = K.
  exact: (@ie_size_sm [realFieldType of R] (md m) A Q Hs (mReset m) nd y tm dl inst (mPinf m) N0).
have he := en_lt dl hi.
rewrite (nth_map (0, 0)%R) ?hs // /proj_mean; have [-> _] := fc_smooth he.
rewrite proj_post_mean fc_row // gp_meanE size_coord_list.
transitivity (gpm N (fun a c => kern (Xi a) (Xi c)) (fun c => kern (Xi i) (Xi c)) nd y); first by [].
by apply: gpm_ext => [a c ha hc|c hc]; rewrite !nth_exposure.
Qed.
Lemma fc_cov i : (i < N)%N ->
  proj_var (mH m (Xi i)) (nth 0%R (unzip2 sm) (enn i))
  = gp_var (CT 0) kern (coord_list X) nd (Xi i).
Proof.
move=> hi; have hs : size sm = K.
  exact: (@ie_size_sm [realFieldType of R] (md m) A Q Hs (mReset m) nd y tm dl inst (mPinf m) N0).
have he := en_lt dl hi.
rewrite (nth_map (0, 0)%R) ?hs // /proj_var; have [_ ->] := fc_smooth he.
rewrite proj_post_cov fc_row // fc_var // gp_varE size_coord_list.
transitivity (gpv N (fun a c => kern (Xi a) (Xi c)) (kern (Xi i) (Xi i)) (fun c => kern (Xi i) (Xi c)) nd); first by [].
by apply: gpv_ext => [a c ha hc||c hc] //; rewrite !nth_exposure.
Qed.
End Exact.

Lemma gp_fields c k X f mu v nd s st : c = @Gp k X f mu v nd s st ->
  g_X c = X /\ g_mean c = mu /\ g_var c = v.
Proof. by move=> ->. Qed.

(** ** The call *)
Section Call.
Variables (k b : kernel) (tm dl : seq R) (inst : seq nat) (diag : option farray) (y : seq R).
Let X := CTriple tm dl inst.
Let N := size tm.
Let nd := variances diag N.
Let m := denote k.
Hypothesis wf : wf_integrated k.
Hypothesis eb : base_kernel k = Some b.
Hypothesis ve : valid_exposures (instruments k) X diag y.
Hypothesis sk : exposure_steps_kept k X.
Let kern := integrated_cov b.
Let s := Solver IntegratedStateSpaceSolver k X nd.
Let r := results_of (int_state_coords s) (int_run s y true).
Variables (mean : option (coord -> R)) (sa : solver_arg) (g : gp).
Hypothesis hsa : default_integrated_solver sa.
Hypothesis hg : gaussian_process smolgp_ops k X diag mean sa = inr g.

Lemma int_so_condition : so_condition (smolgp_ops IntegratedStateSpaceSolver) s y true = inr r.
Proof. by rewrite /= /int_solver_condition /traced_transition wf_integrated_raises. Qed.

(** Conditioning on N = 1 raises; otherwise it returns these arrays. *)
Lemma thm_int_condition_shape lp c : gp_condition smolgp_ops g y None None = inr (lp, c) ->
  [/\ N <> 1%N, lp = Fin (log_normal (CT 0) kern (coord_list X) nd y) &
  exists k'', denote k'' = m /\
  c = @Gp k'' X (fun _ => 0%R)
    (mkseq (fun i => proj_mean (mH m (CX (nth 0%R tm i) (nth 0%R dl i) (nth 0%N inst i)))
                (nth 0%R (r_ms r) (@en [realFieldType of R] tm dl i))) N)
    (Some (Vector (mkseq (fun i => proj_var (mH m (CX (nth 0%R tm i) (nth 0%R dl i) (nth 0%N inst i)))
                (nth 0%R (r_Ps r) (@en [realFieldType of R] tm dl i))) N))) nd s
    (Some (int_states tm dl inst r))].
Proof.
have [k' [e ->]] := fi_gp wf ve hsa hg.
have ek := unique_denote e.
have ii : gp_integrated k' by rewrite (unique_integrated e) wf_integrated_is.
move=> h; have [n1 -> [k'' [e2 ->]]] := gp_condition_shape (kd:=IntegratedStateSpaceSolver) isT int_so_condition (erefl _) (erefl _) ii ek h.
split=> //; first exact: (fi_log_prob wf eb ve sk).
by exists k''; split; first rewrite e2 ek.
Qed.

Hypothesis nk : noisy_integrated k.
Hypothesis so : smoothable X.

Lemma thm_int_condition lp c : gp_condition smolgp_ops g y None None = inr (lp, c) ->
  [/\ lp = Fin (log_normal (CT 0) kern (coord_list X) nd y), g_X c = X,
      g_mean c = [seq gp_mean (CT 0) kern (coord_list X) nd y x | x <- coord_list X] &
      g_var c = Some (Vector [seq gp_var (CT 0) kern (coord_list X) nd x | x <- coord_list X])].
Proof.
move=> /thm_int_condition_shape[_ -> [k'' [_ e]]].
have [-> [-> ->]] := gp_fields e.
split; [exact: erefl|exact: erefl| |].
- rewrite -(mkseq_map (CT 0)) size_coord_list; apply: eq_mkseq_in => i hi.
  by rewrite nth_exposure // -(fc_mean wf eb ve sk nk so hi).
- congr (Some (Vector _)).
  rewrite -(mkseq_map (CT 0)) size_coord_list; apply: eq_mkseq_in => i hi.
  by rewrite nth_exposure // -(fc_cov wf eb ve sk nk so hi).
Qed.

(** It does return. *)
Lemma thm_int_condition_defined : names_ok k -> N <> 1%N -> exists lp c, gp_condition smolgp_ops g y None None = inr (lp, c).
Proof.
move=> /unique_names_ok[k0 [e0 [k'' e2]]] n1; have [k' [e ->]] := fi_gp wf ve hsa hg.
have ii : gp_integrated k' by rewrite (unique_integrated e) wf_integrated_is.
move: e0; rewrite e => -[e0]; rewrite -e0 in e2.
apply: (gp_condition_defined (kd:=IntegratedStateSpaceSolver) _ _ isT int_so_condition (erefl _) (erefl _) ii e2 n1).
Qed.
End Call.
