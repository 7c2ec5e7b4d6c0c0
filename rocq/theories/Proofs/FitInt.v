(** The front end with the sequential integrated solver: the log density. *)
From Coq Require Import Reals String Lra.
From mathcomp Require Import all_ssreflect all_algebra.
From Verif.Prelude Require Import Rstruct Psd.
From Verif.Spec Require Import Gp WfKernel CovOf LogNormal Data IntCov WfIntegrated Exposures.
From Verif.Model Require Import Array Jax Ssm Sequential BaseKernels Kernel Integrated Frontend
  SequentialOps Gp.
From Verif.Proofs Require Import GpExt Names Rename Fit FitAny IntBook MarkovChain IntExact LagInt WindowCov
  WindowKernel IntGram.
Set Implicit Arguments.
Unset Strict Implicit.
Unset Printing Implicit Defensive.
Import Order.TTheory GRing.Theory Num.Theory.

Lemma wf_integrated_is k : wf_integrated k -> gp_integrated k.
Proof.
rewrite /gp_integrated; elim: k => //= k1 h1 k2 h2 [w1 w2].
by rewrite has_cat h1.
Qed.
Lemma wf_integrated_raises k : wf_integrated k -> transition_raises false k = None.
Proof. by elim: k => //= k1 h1 k2 h2 [/h1 -> /h2 ->]. Qed.
Lemma wf_integrated_base k : wf_integrated k -> exists b, base_kernel k = Some b.
Proof.
elim: k => //=; try by eexists.
by move=> k1 h1 k2 h2 [/h1[b1 ->] /h2[b2 ->]]; eexists.
Qed.
Lemma plain_kept k dt : wf_integrated k -> plain_integrated k -> all_noise_kept dt k.
Proof. by elim: k => //= k1 h1 k2 h2 [w1 w2] [p1 p2]; split; [apply: h1|apply: h2]. Qed.

Lemma integrated_processE k X diag mean sa : default_integrated_solver sa ->
  size (variances diag (num_coords X)) = num_coords X -> gp_integrated k ->
  int_init k X = None ->
  gaussian_process smolgp_ops k X diag mean sa
  = (k' <-- assign_unique_kernel_names k ;;
     inr (@Gp k' X (if mean is Some f then f else fun _ => 0%R)
            (map (if mean is Some f then f else fun _ => 0%R) (coord_list X)) None
            (variances diag (num_coords X))
            (Solver IntegratedStateSpaceSolver k X (variances diag (num_coords X))) None)).
Proof.
move=> hsa hd ik hX; rewrite /gaussian_process /gp_init /=.
case e: (assign_unique_kernel_names k) => [//|k'] /=.
have tX : is_tuple X by case: X hX {hd} => //= t; case: ifP.
rewrite (unique_integrated e) ik tX /= size_map size_coord_list broadcast_variances //=.
by case: hsa => -> /=; rewrite hX.
Qed.

Section Data.
Variables (k b : kernel) (tm dl : seq R) (inst : seq nat) (diag : option farray) (y : seq R).
Let X := CTriple tm dl inst.
Let N := size tm.
Let K := N.*2.
Let nd := variances diag N.
Let m := denote k.
Hypothesis wf : wf_integrated k.
Hypothesis eb : base_kernel k = Some b.
Hypothesis ve : valid_exposures (instruments k) X diag y.
Hypothesis sk : exposure_steps_kept k X.
Let kern := integrated_cov b.
Let kap := fun r => covariance b (Rabs r).
Let A := fun u v => mA m (CT u) (CT v).
Let Q := fun u v => mQ m (CT u) (CT v).
Let Hs := map (mH m) (coord_list X).
Let t := @t_states [realFieldType of R] tm dl.
Let obs := @obsid [realFieldType of R] tm dl.
Let st := @stateid [realFieldType of R] tm dl.
Let Xi i := CX (nth 0%R tm i) (nth 0%R dl i) (nth 0%N inst i).
Local Notation stn := (@IntBook.st [realFieldType of R] tm dl).
Local Notation enn := (@en [realFieldType of R] tm dl).

Lemma fi_exposure i : (i < N)%N -> exposure X i = Xi i.
Proof. by move=> h; rewrite /exposure nth_mkseq. Qed.
Lemma fi_N0 : (0 < N)%N. Proof. exact: (ve_N ve). Qed.
Lemma fi_insts i : (i < N)%N -> (nth 0%N inst i < instruments k)%N.
Proof. by move=> h; have := ve_inst ve h; rewrite fi_exposure. Qed.
Lemma fi_lens i : (i < N)%N -> Rle 0 (nth 0%R dl i).
Proof. by move=> h; have := ve_len ve h; rewrite fi_exposure. Qed.
Lemma fi_sep i j : (i < N)%N -> (j < N)%N -> nth 0%N inst i = nth 0%N inst j ->
  Rlt 0 (nth 0%R dl i) -> ~ (Rlt (begin (Xi i)) (begin (Xi j)) /\ Rlt (begin (Xi j)) (finish (Xi i))).
Proof. by move=> hi hj; have := ve_sep ve hi hj; rewrite !fi_exposure. Qed.
Lemma fi_nd i : (i < N)%N -> Rlt 0 (nth 0%R nd i).
Proof. by move=> h; apply: (ve_pos ve). Qed.

Lemma fi_bound i : (i < K)%N -> boundary X (nth 0%R t i).
Proof.
move=> hi; have ho := @obs_lt _ tm dl _ hi; exists (nth 0%N obs i); split=> //.
rewrite fi_exposure //; case e: (nth 0%N st i == 0%N).
  by left; rewrite -(st_begin _ inst) // {1}(is_start hi (eqP e)).
by right; rewrite -(en_finish _ inst) // {1}(is_end hi (negbT e)).
Qed.
Lemma fi_bound_inv s : boundary X s -> exists2 i, (i < K)%N & s = nth 0%R t i.
Proof.
move=> [i [hi]]; rewrite fi_exposure // => -[]->.
  by exists (stn i); [apply: IntBook.st_lt|rewrite (st_begin _ inst)].
by exists (enn i); [apply: en_lt|rewrite (en_finish _ inst)].
Qed.
Lemma fi_step i : (i.+1 < K)%N -> all_noise_kept (Rminus (nth 0%R t i.+1) (nth 0%R t i)) k.
Proof.
move=> hi; apply: sk; [exact/fi_bound/ltnW|exact: fi_bound|exact: t_le|].
move=> u /fi_bound_inv[j hj ->] [h1 h2]; case: (leqP j i) => ji.
  by have := @t_le tm dl _ _ ji (ltnW hi) => /Rle_not_lt.
by have := @t_le tm dl _ _ ji hj => /Rle_not_lt.
Qed.
Lemma fi_step0 : all_noise_kept 0 k.
Proof.
have b0 : boundary X (nth 0%R t 0) by apply: fi_bound; rewrite double_gt0 fi_N0.
rewrite -(Rminus_diag_eq _ _ (erefl (nth 0%R t 0))); apply: sk => //; first exact: Rle_refl.
by move=> u _ [h1 /(Rlt_trans _ _ _ h1)/Rlt_irrefl].
Qed.

Let w := kernel_wincov wf eb.
Let o := integrated_kalman_filter A Q Hs (mReset m) nd y t obs inst st 0 (mPinf m).
Let pP := win_psd_P w.
Let pQ0 := win_psd_Q0 w fi_step0.
Let pQ i := @win_psd_Q _ _ _ _ w tm dl fi_step i.
Let Rpos i (h : (i < N)%N) : (0 < nd`_i)%R := introT (RltP _ _) (fi_nd h).
Let ys : size y = N := ve_y ve.

Lemma fi_Hs : Hs = map (mH m) (mkseq Xi N). Proof. by []. Qed.
Lemma fi_Sg : @ie_Sg [realFieldType of R] (md m) A Q Hs (mReset m) nd tm dl inst (mPinf m)
  = dcov N (fun i j => kern (Xi i) (Xi j)) nd.
Proof.
apply/matrixP=> i j; rewrite (win_Sg w _ fi_step0 fi_step fi_insts fi_lens fi_sep).
by rewrite !mxE.
Qed.

Lemma fi_dcov : data_cov (gram (CT 0) kern (coord_list X)) (row_of _ nd)
  = dcov (size (coord_list X)) (fun i j => kern (exposure X i) (exposure X j)) nd.
Proof. by []. Qed.
Lemma fi_det : gp_det (CT 0) kern (coord_list X) nd = (\prod_(i <- @ends [realFieldType of R] tm dl)
   o_S (nth (0, 0, 0, 0, 0, 0) o i) 0 0)%R.
Proof.
rewrite gp_detE size_coord_list -(@ie_det [realFieldType of R] (md m) A Q Hs (mReset m) nd y tm dl inst (mPinf m) pP pQ0 pQ Rpos fi_N0) fi_Sg.
by apply: gpd_ext => i j hi hj; rewrite !(nth_mkseq _ _ hi) !(nth_mkseq _ _ hj).
Qed.
Lemma fi_quad : gp_quad (CT 0) kern (coord_list X) nd y = (\sum_(i <- @ends [realFieldType of R] tm dl)
   (o_v (nth (0, 0, 0, 0, 0, 0) o i) 0 0) ^+ 2 / o_S (nth (0, 0, 0, 0, 0, 0) o i) 0 0)%R.
Proof.
rewrite gp_quadE size_coord_list -(@ie_quad [realFieldType of R] (md m) A Q Hs (mReset m) nd y tm dl inst (mPinf m) pP pQ0 pQ Rpos fi_N0) fi_Sg.
by apply: gpq_ext => i j hi hj; rewrite !(nth_mkseq _ _ hi) !(nth_mkseq _ _ hj).
Qed.

Lemma fi_det_neq0 : gp_det (CT 0) kern (coord_list X) nd <> 0%R.
Proof.
rewrite fi_det; apply/eqP; rewrite prodf_seq_neq0; apply/allP=> i /ends_in[h1 h2] /=.
apply: lt0r_neq0; exact: (@ie_Spos [realFieldType of R] (md m) A Q Hs (mReset m) nd y tm dl inst (mPinf m) pP pQ0 pQ Rpos fi_N0 _ h1 h2).
Qed.

Lemma fi_log_prob : compute_log_prob (ends_vS y st o).1 (ends_vS y st o).2
  = Fin (log_normal (CT 0) kern (coord_list X) nd y).
Proof.
have hE : nonzero_ones st (size y) = @ends [realFieldType of R] tm dl by rewrite ys.
have hs := @ends_size _ tm dl.
have S0 i : (i < N)%N ->
    Rlt 0 ((nth 0%R (ends_vS y st o).2 i : 'M[R]_1) 0%R 0%R).
  move=> hi; rewrite /ends_vS hE /= (nth_map 0%N) ?hs //; apply/RltP.
  have /ends_in[h1 h2] : nth 0%N (@ends [realFieldType of R] tm dl) i \in @ends [realFieldType of R] tm dl.
    by rewrite mem_nth ?hs.
  exact: (@ie_Spos [realFieldType of R] (md m) A Q Hs (mReset m) nd y tm dl inst (mPinf m) pP pQ0 pQ Rpos fi_N0 _ h1 h2).
rewrite compute_log_probE; last 2 first.
- by move=> i hi; apply: S0; move: hi; rewrite size_map hE hs.
- by rewrite !size_map.
rewrite /log_normal size_coord_list fi_det fi_quad /ends_vS hE [num_coords _]/= size_map hs.
congr (Fin (Rmult _ (Rplus (Rplus _ (ln _)) _))).
  rewrite (big_nth 0%N) hs big_mkord; apply: eq_bigr => i _.
  by rewrite !(nth_map 0%N) ?hs.
rewrite (big_nth 0%N) hs big_mkord; apply: eq_bigr => i _.
by rewrite !(nth_map 0%N) ?hs.
Qed.

(** ** The calls *)
Variables (mean : option (coord -> R)) (sa : solver_arg) (g : gp).
Hypothesis hsa : default_integrated_solver sa.

Lemma fi_gp : gaussian_process smolgp_ops k X diag mean sa = inr g ->
  exists k', assign_unique_kernel_names k = inr k' /\
  g = @Gp k' X (if mean is Some f then f else fun _ => 0%R)
     (map (if mean is Some f then f else fun _ => 0%R) (coord_list X)) None nd
     (Solver IntegratedStateSpaceSolver k X nd) None.
Proof.
rewrite integrated_processE ?(ve_d ve) ?wf_integrated_is //.
by case e: (assign_unique_kernel_names k) => [//|k'] /= [<-]; exists k'.
Qed.

Lemma thm_int_log_probability : gaussian_process smolgp_ops k X diag mean sa = inr g ->
  gp_log_probability smolgp_ops g y = inr (Fin (log_normal (CT 0) kern (coord_list X) nd y)).
Proof.
move=> /fi_gp[k' [e ->]]; rewrite /gp_log_probability /= /int_kalman /traced_transition /=.
rewrite wf_integrated_raises //=; congr inr; exact: fi_log_prob.
Qed.

Lemma thm_int_defined : names_ok k -> exists g, gaussian_process smolgp_ops k X diag mean sa = inr g.
Proof.
move=> /unique_names_ok[k' [e _]]; rewrite integrated_processE ?(ve_d ve) ?wf_integrated_is // e.
by eexists.
Qed.
End Data.
