(** Prediction with the sequential integrated solver. *)
From Coq Require Import Reals String Lra.
From mathcomp Require Import all_ssreflect all_algebra.
From Verif.Prelude Require Import Rstruct Psd.
From Verif.Spec Require Import Gp WfKernel CovOf LogNormal Data IntCov WfIntegrated Exposures Smoothable TestTimes.
From Verif.Model Require Import Array Jax Ssm Sequential BaseKernels Kernel Integrated Frontend
  SequentialOps Gp.
From Verif.Proofs Require Import GpExt Names Rename Fit FitAny IntBook MarkovChain IntExact LagInt WindowCov
  WindowKernel IntGram FitInt IntOrder IntWide IntPd FitIntCond IntPredict IntStar IntFlow.
Set Implicit Arguments.
Unset Strict Implicit.
Unset Printing Implicit Defensive.
Import Order.TTheory GRing.Theory Num.Theory.

Section Exact.
Variables (k b : kernel) (tm dl : seq R) (inst : seq nat) (diag : option farray) (y : seq R).
Let X := CTriple tm dl inst.
Let N := size tm.
Let K := N.*2.
Let nd := variances diag N.
Let m := denote k.
Hypothesis wf : wf_integrated k.
Hypothesis eb : base_kernel k = Some b.
Hypothesis ve : valid_exposures (instruments k) X diag y.
Hypothesis sk : exposure_steps_kept k X.
Hypothesis nk : noisy_integrated k.
Hypothesis so : smoothable X.
Variable s : R.
Hypothesis tk : test_kept k X s.
Let kern := integrated_cov b.
Let A := fun u v => mA m (CT u) (CT v).
Let Q := fun u v => mQ m (CT u) (CT v).
Let Hs := map (mH m) (coord_list X).
Let t := @t_states [realFieldType of R] tm dl.
Let obs := @obsid [realFieldType of R] tm dl.
Let st := @stateid [realFieldType of R] tm dl.
Let Xi i := CX (nth 0%R tm i) (nth 0%R dl i) (nth 0%N inst i).
Local Notation enn := (@en [realFieldType of R] tm dl).
Let w := kernel_wincov wf eb.
Let fl := kernel_flow wf.
Let step0 := fi_step0 ve sk.
Let step i (h : (i.+1 < K)%N) := fi_step sk h.
Let pP := win_psd_P w.
Let pQ0 := win_psd_Q0 w step0.
Let pQ i := @win_psd_Q _ _ _ _ w tm dl step i.
Let Rpos i (h : (i < N)%N) : (0 < nd`_i)%R := introT (RltP _ _) (fi_nd ve h).
Let N0 := fi_N0 ve.
Let wd := kernel_wide wf nk.
Let x := CT s.
Let h := mH m x.

Lemma fp_K0 : (0 < K)%N. Proof. by rewrite double_gt0. Qed.
Lemma fp_n0 : (0 < instruments k)%N.
Proof. exact: leq_ltn_trans (leq0n _) (fi_insts ve N0). Qed.

(** The noise of the partial steps is kept. *)
Lemma fp_prev i : (i < K)%N -> Rle (nth 0%R t i) s -> (forall j, (i < j)%N -> (j < K)%N -> Rle s (nth 0%R t j)) ->
  all_noise_kept (Rminus s (nth 0%R t i)) k.
Proof.
move=> hi h1 h2.
have -> : Rminus s (nth 0%R t i) = Rabs (Rminus s (nth 0%R t i)).
  by rewrite Rabs_pos_eq //; apply: Rge_le; apply: Rge_minus; apply: Rle_ge.
apply: tk; first exact: (fi_bound dl inst hi).
move=> v /fi_bound_inv[j hj ->]; rewrite -/t; split=> -[h3 h4]; last first.
  by have := Rlt_not_le _ _ (Rlt_trans _ _ _ h3 h4).
case: (leqP j i) => ji; first by have := @t_le tm dl _ _ ji hi => /Rle_not_lt.
by have := Rlt_not_le _ _ h4 (h2 _ ji hj).
Qed.
Lemma fp_next i : (i < K)%N -> Rle s (nth 0%R t i) -> (forall j, (j < i)%N -> Rle (nth 0%R t j) s) ->
  all_noise_kept (Rminus (nth 0%R t i) s) k.
Proof.
move=> hi h1 h2.
have -> : Rminus (nth 0%R t i) s = Rabs (Rminus s (nth 0%R t i)).
  by rewrite Rabs_minus_sym Rabs_pos_eq //; apply: Rge_le; apply: Rge_minus; apply: Rle_ge.
apply: tk; first exact: (fi_bound dl inst hi).
move=> v /fi_bound_inv[j hj ->]; rewrite -/t; split=> -[h3 h4].
  by have := Rlt_not_le _ _ (Rlt_trans _ _ _ h3 h4).
case: (leqP i j) => ji; first by have := @t_le tm dl _ _ ji hj => /Rle_not_lt.
by have := Rlt_not_le _ _ h3 (h2 _ ji).
Qed.
Lemma fp_between i : (i.+1 < K)%N -> Rle (nth 0%R t i) s -> Rle s (nth 0%R t i.+1) ->
  all_noise_kept (Rminus s (nth 0%R t i)) k /\ all_noise_kept (Rminus (nth 0%R t i.+1) s) k.
Proof.
move=> hi h1 h2; split.
  apply: (fp_prev (ltnW hi) h1) => j ij hj.
  by apply: Rle_trans h2 _; apply: (@t_le tm dl).
apply: (fp_next hi h2) => j ij.
apply: Rle_trans h1; exact: (@t_le tm dl j i ij (ltnW hi)).
Qed.

Lemma flow_at (u v r : R) (ok : R -> Prop) (mm : model) : flow mm ok -> Rle u v -> Rle v r ->
  ok (Rminus v u) -> ok (Rminus r v) -> ok (Rminus r u) ->
  (mA mm (CT R0) (CT (Rminus r v)) *m mA mm (CT R0) (CT (Rminus v u)) = mA mm (CT R0) (CT (Rminus r u)) /\
   mA mm (CT R0) (CT (Rminus r v)) *m mQ mm (CT R0) (CT (Rminus v u)) *m (mA mm (CT R0) (CT (Rminus r v)))^T
     + mQ mm (CT R0) (CT (Rminus r v)) = mQ mm (CT R0) (CT (Rminus r u)))%R.
Proof.
move=> f h1 h2 k1 k2.
have e : Rminus r u = Rplus (Rminus v u) (Rminus r v) by ring.
have g1 : Rle 0 (Rminus v u) by lra.
have g2 : Rle 0 (Rminus r v) by lra.
rewrite e => k3; split; first by rewrite (fl_A f).
by rewrite (fl_Q f g1 g2 k1 k2 k3).
Qed.

Let c := int_condition A Q Hs (mReset m) nd y t obs inst st (mPinf m) false.
Let Sg := dcov N (fun i j => kern (Xi i) (Xi j)) nd.

Lemma fp_stat : (A 0 0 *m mPinf m *m (A 0 0)^T + Q 0 0 = mPinf m)%R.
Proof.
have := @wc_step _ _ _ _ w R0 R0 (fun=> R0) (fun=> true) (Rle_refl _) step0.
by rewrite Rplus_0_r -(wc_init w) => <-.
Qed.

Let S0 := @ie_S0 [realFieldType of R] (md m) A Q (mPinf m).
Let Ap := @ie_Ap [realFieldType of R] (md m) A (mReset m) tm dl inst.
Let Qp := @ie_Q [realFieldType of R] (md m) Q tm dl.
Let rs := @reset_at [realFieldType of R] (md m) (mReset m) tm dl inst.
Let starS i := @star_S [realFieldType of R] (md m) A Q (mPinf m) (mReset m) tm dl inst i s.

Lemma fp_sym u v : kern u v = kern v u.
Proof. by rewrite /kern /integrated_cov; apply: mean_cov_sym; [exact: (wc_cont w)|exact: (wc_even w)]. Qed.
Lemma fp_H (j : 'I_N) : @ie_h [realFieldType of R] (md m) Hs tm j = mH m (Xi j).
Proof. by rewrite /ie_h /Hs (Hs_nth m dl inst). Qed.
Lemma fp_steps i : (i.+1 < K)%N -> (nth 0 t i <= s)%R -> (s <= nth 0 t i.+1)%R ->
  (A 0 (nth 0 t i.+1 - s) *m A 0 (s - nth 0 t i) = A 0 (nth 0 t i.+1 - nth 0 t i) /\
  A 0 (nth 0 t i.+1 - s) *m Q 0 (s - nth 0 t i) *m (A 0 (nth 0 t i.+1 - s))^T
    + Q 0 (nth 0 t i.+1 - s) = Q 0 (nth 0 t i.+1 - nth 0 t i))%R.
Proof.
move=> hi /RleP h1 /RleP h2; have [k1 k2] := fp_between hi h1 h2.
exact: (flow_at fl h1 h2 k1 k2 (fi_step sk hi)).
Qed.
Lemma fp_after i : (i < K)%N -> Rle (nth 0%R t i) s -> ((i.+1 < K)%N -> Rle s (nth 0%R t i.+1)) ->
  all_noise_kept (Rminus s (nth 0%R t i)) k.
Proof.
move=> hi h1 h2; apply: (fp_prev hi h1) => j ij hj.
apply: Rle_trans (h2 (leq_ltn_trans ij hj)) _; exact: (@t_le tm dl).
Qed.

Lemma fp_v_before : (s <= nth 0 t 0)%R -> (h *m mPinf m *m h^T = (kern x x)%:M)%R.
Proof. by move=> _; exact: (before_var w fp_n0). Qed.
Lemma fp_g_before : (s <= nth 0 t 0)%R -> forall j : 'I_N,
  (h *m (mPinf m *m (A 0 (nth 0 t 0 - s))^T *m ((T Ap (enn j) 0)^T *m (@ie_h [realFieldType of R] (md m) Hs tm j)^T)))%R 0%R 0%R
  = kern x (Xi j).
Proof.
move=> /RleP h1 j; rewrite fp_H.
exact: (@before_future _ _ _ _ w tm dl inst (fi_insts ve) (fi_lens ve) (fi_sep ve) fp_n0 s h1 j (ltn_ord j)).
Qed.
Lemma fp_starS i : (i < K)%N -> Rle (nth 0%R t i) s -> ((i.+1 < K)%N -> Rle s (nth 0%R t i.+1)) ->
  starS i = wc_S w s (aw tm dl inst i.+1) (uw tm dl inst i.+1).
Proof.
move=> hi h1 h2.
exact: (@after_S _ _ _ _ w tm dl inst step0 step (fi_insts ve) s i hi h1 (fp_after hi h1 h2)).
Qed.
Lemma fp_v_after i : (i < K)%N -> (nth 0 t i <= s)%R -> ((i.+1 < K)%N -> (s <= nth 0 t i.+1)%R) ->
  (h *m starS i *m h^T = (kern x x)%:M)%R.
Proof.
move=> hi /RleP h1 h2; rewrite fp_starS //; last by move=> /h2/RleP.
exact: (@after_var _ _ _ _ w tm dl inst fp_n0 s i hi h1).
Qed.
Lemma fp_g_past i : (i < K)%N -> (nth 0 t i <= s)%R -> ((i.+1 < K)%N -> (s <= nth 0 t i.+1)%R) ->
  forall j : 'I_N, (enn j <= i)%N -> (h *m (A 0 (s - nth 0 t i) *m rs i *m (mcov S0 Ap Qp i (enn j) *m
     (@ie_h [realFieldType of R] (md m) Hs tm j)^T)))%R 0%R 0%R = kern x (Xi j).
Proof.
move=> hi /RleP h1 h2 j ji; rewrite fp_H fp_sym.
exact: (@after_past _ _ _ _ w tm dl inst step0 step (fi_insts ve) (fi_lens ve) (fi_sep ve) fp_n0 s i hi h1 j (ltn_ord j) ji).
Qed.
Lemma fp_g_future i : (i.+1 < K)%N -> (nth 0 t i <= s)%R -> (s <= nth 0 t i.+1)%R ->
  forall j : 'I_N, (i < enn j)%N -> (h *m (starS i *m (A 0 (nth 0 t i.+1 - s))^T *m
     ((T Ap (enn j) i.+1)^T *m (@ie_h [realFieldType of R] (md m) Hs tm j)^T)))%R 0%R 0%R = kern x (Xi j).
Proof.
move=> hi /RleP h1 /RleP h2 j ij; have hi' := ltnW hi.
rewrite fp_H fp_starS //.
exact: (@after_future _ _ _ _ w tm dl inst step0 step (fi_insts ve) (fi_lens ve) (fi_sep ve) fp_n0 s i hi' h1 (fp_after hi' h1 (fun _ => h2)) h2 j (ltn_ord j) ij).
Qed.
Lemma fp_sorted : sorted <=%R t.
Proof. by apply/(sortedP 0%R) => i hi; apply: t_sorted => //; rewrite -(t_size tm dl). Qed.

Lemma fp_point : 
  (h *m (@pr_point _ (to_ssm m) c s).1 = post_mean (\row_(j < N) kern x (Xi j)) Sg (col_of N y) /\
   h *m (@pr_point _ (to_ssm m) c s).2 *m h^T = post_cov (kern x x)%:M (\row_(j < N) kern x (Xi j)) Sg)%R.
Proof.
exact: (@point_seen [realFieldType of R] (md m) (fun t => mH m (CT t)) A Q (mPinf m) Hs (mReset m) nd y tm dl inst false
  (wd_P wd) (fun x => wd_A wd x) pQ0 pQ Rpos (fc_full wf ve sk nk so) N0 (fc_last ve so) fp_stat s fp_sorted
  (t_size tm dl) fp_steps Sg (fi_Sg wf eb ve sk) h (kern x x) (fun j => kern x (Xi j))
  fp_v_before fp_g_before fp_v_after fp_g_past fp_g_future).
Qed.
End Exact.
