(** More user-level statements: definedness, guards, variances, agreement. *)
From Coq Require Import Reals String Lra.
From mathcomp Require Import all_ssreflect all_algebra.
From Verif.Prelude Require Import Rstruct Psd.
From Verif.Spec Require Import Gp Markov Lti WfKernel LogNormal Data.
From Verif.Model Require Import Array Jax Ssm Sequential BaseKernels Kernel Integrated Frontend
  SequentialOps Gp.
From Verif.Proofs Require Import StateCov SeqExact SeqIdeal SeqMore SeqGp SeqLinear GpExt Lti KernelLti
  Evaluate KernelThms Names Rename Fit FitAny FitThms.
Set Implicit Arguments.
Unset Strict Implicit.
Unset Printing Implicit Defensive.
Import Order.TTheory GRing.Theory Num.Theory.

(** ** Generic facts about the filter output lists *)
Section Lists.
Variables (F : realFieldType) (k : ssm F).
Hypothesis vk : valid_ssm k.
Variables (t y R : seq F).
Hypothesis tsort : sorted <=%R t.
Hypothesis Rpos : forall i, (i < size t)%N -> (0 < R`_i)%R.
Variable b : bool.
Let c := seq_condition k t y R b.

Lemma cond_pd i : (i < size t)%N -> pdmx (nth 0%R (c_Pp c) i) /\ pdmx (nth 0%R (c_Pf c) i).
Proof. by move=> hi; rewrite !nth_out //; apply: pd_both. Qed.
Lemma cond_order i : (i < size t)%N ->
  mxle (nth 0%R (c_Ps c) i) (nth 0%R (c_Pf c) i) /\ mxle (nth 0%R (c_Pf c) i) (nth 0%R (c_Pp c) i).
Proof.
move=> hi; rewrite nth_sh2 // !nth_out //; split; first exact: smooth_le_filt.
exact: filt_le_pred.
Qed.
Lemma cond_smooth_psd i : (i < size t)%N -> psdmx (nth 0%R (c_Ps c) i).
Proof. by move=> hi; rewrite nth_sh2 // seq_smooth_exact //; apply: post_psd. Qed.
End Lists.

Section More.
Variables (k : kernel) (X : coords) (diag : option farray) (mean : option (coord -> R)).
Variables (sa : solver_arg) (y : seq R) (kern : coord -> coord -> R).
Hypothesis wf : wf_kernel k.
Hypothesis co : const_obs k.
Hypothesis vd : valid_data X diag y.
Hypothesis kept : steps_kept k (times X).
Hypothesis hkern : forall X1 X2, kernel_evaluate false k X1 X2 = inr (kern X1 X2).
Hypothesis hsa : default_solver sa.
Let N := num_coords X.
Let nd := variances diag N.

Section Given.
Variable g : gp.
Hypothesis hg : gaussian_process smolgp_ops k X diag mean sa = inr g.

Lemma thm_guards b r : so_condition (smolgp_ops (sv_kind (g_solver g))) (g_solver g) y b = inr r ->
  (forall i, (i < N)%N ->
     pdmx (nth 0%R (r_Pp r) i) /\ nth 0%R (r_Pp r) i \in unitmx) /\
  (b -> exists v S_, r_vS r = Some (v, S_) /\ size S_ = N /\
     forall i, (i < N)%N -> Rlt 0 ((nth 0%R S_ i : 'M[R]_1) 0%R 0%R)).
Proof.
have [k' [e eg]] := gE wf vd hsa hg; move: r; rewrite eg => r; rewrite [sv_kind _]/= => h.
have : inr r = inr (fit_results k X diag y b) :> err + _.
  by rewrite -h; apply: (@seq_conditionE k X diag y kern hkern).
case=> ->; split=> [i hi|->].
  have [pd _] := cond_pd (vks wf) y (t_sorted vd) (nd_pos vd) b hi.
  rewrite -[r_Pp _]/(c_Pp (fit_cond k X diag y b)) (fit_condE diag y wf kept); split=> //; exact: pd_unit.
exists (map (@o_v _ _) (KalmanFilter (to_ssm (denote k)) (times X) y nd)),
  (map (@o_S _ _) (KalmanFilter (to_ssm (denote k)) (times X) y nd)); split=> //; split.
  by rewrite size_map size_out.
move=> i hi; exact: (fit_S_pos wf vd kept hi).
Qed.

Lemma thm_order b r : so_condition (smolgp_ops (sv_kind (g_solver g))) (g_solver g) y b = inr r ->
  forall i h, (i < N)%N ->
    Rle (proj_var h (nth 0%R (r_Ps r) i)) (proj_var h (nth 0%R (r_Pf r) i)) /\
    Rle (proj_var h (nth 0%R (r_Pf r) i)) (proj_var h (nth 0%R (r_Pp r) i)).
Proof.
have [k' [e eg]] := gE wf vd hsa hg; move: r; rewrite eg => r; rewrite [sv_kind _]/= => h.
have : inr r = inr (fit_results k X diag y b) :> err + _.
  by rewrite -h; apply: (@seq_conditionE k X diag y kern hkern).
case=> -> i u hi; rewrite -[r_Ps _]/(c_Ps (fit_cond k X diag y b)) -[r_Pf _]/(c_Pf (fit_cond k X diag y b)) -[r_Pp _]/(c_Pp (fit_cond k X diag y b)) (fit_condE diag y wf kept).
have [l1 l2] := cond_order (vks wf) y (t_sorted vd) (nd_pos vd) b hi.
by split; apply/RleP; apply: mxle_proj.
Qed.

Lemma dense_var x : Rle 0 (gp_var (CT 0) kern (coord_list X) nd x) /\
  Rle (gp_var (CT 0) kern (coord_list X) nd x) (kern x x).
Proof.
have kE := kernE wf co hkern.
rewrite -(gp_var_map (CT 0) (0%R : R) kE) -times_coord_list kE.
split; apply/RleP.
  exact: (gp_var_ge0 (vks wf) (nd_pos vd)).
exact: (gp_var_le (vks wf) (nd_pos vd)).
Qed.

Variables (lp : xreal) (c : gp).
Hypothesis hc : gp_condition smolgp_ops g y None None = inr (lp, c).

Lemma thm_var_cond : exists v, g_var c = Some (Vector v) /\ size v = N /\
  forall i, (i < N)%N -> let x := nth (CT 0) (coord_list X) i in
    Rle 0 (nth 0%R v i) /\ Rle (nth 0%R v i) (kern x x).
Proof.
have [_ _ _ ->] := thm_condition wf co vd kept hkern hsa hg hc.
eexists; split; first reflexivity.
rewrite size_map size_coord_list; split=> // i hi; cbv zeta.
rewrite (nth_map (CT 0)) ?size_coord_list //; exact: dense_var.
Qed.

Lemma thm_predict_data Xt y' : Xt = Some X \/ Xt = None ->
  exists d, gp_predict smolgp_ops c Xt y' false None true
  = inr (existT prediction d (PMeanVar (Vector (g_mean c)) (g_var c))).
Proof.
have [_ _ em ev] := thm_condition wf co vd kept hkern hsa hg hc.
have [n1 _ [k'' [_ [k' [_ ec]]]]] := cE wf co vd kept hkern hsa hg hc.
case=> ->.
  have [x hx|d ->] := thm_predict wf co vd kept hkern hsa hg hc (Xt := X) y'.
    move=> i hi le lt.
    have [j [hj ej]] : exists j, (j < N)%N /\ coord_to_sortable x = nth 0%R (times X) j.
      have [j [hj <-]] : exists j, (j < size (coord_list X))%N /\ nth (CT 0) (coord_list X) j = x.
        elim: (coord_list X) hx => //= z l IH [->|/IH[j [hj e]]]; first by exists 0%N.
        by exists j.+1.
      have hN : (j < N)%N by rewrite /N -size_coord_list.
      by exists j; rewrite -coord_nth.
    have <- : Rminus 0 0 = Rminus (coord_to_sortable x) (nth 0%R (times X) i).
      rewrite ej; have := vd_sorted vd.
      have ji : (j <= i)%N.
        rewrite leqNgt; apply/negP => ij; have := lt j; rewrite ij hj ej => /(_ isT); lra.
      move=> s; have := s j i; rewrite ji hi => /(_ isT); rewrite ej in le; lra.
    rewrite Rminus_0_r; by case: kept.
  exists d; rewrite em ev !squeeze_vec // size_map size_coord_list //.
by rewrite ec /=; eexists.
Qed.
End Given.

Lemma thm_defined : names_ok k -> exists g, gaussian_process smolgp_ops k X diag mean sa = inr g.
Proof.
move=> /unique_names_ok[k' [e _]].
rewrite (gaussian_processE _ hsa (vd_d vd) (wf_not_integrated wf)) e.
by eexists.
Qed.

Lemma thm_condition_defined g : names_ok k -> gaussian_process smolgp_ops k X diag mean sa = inr g ->
  N <> 1%N -> exists lp c, gp_condition smolgp_ops g y None None = inr (lp, c).
Proof.
move=> /unique_names_ok[k' [e [k'' e']]].
rewrite (gaussian_processE _ hsa (vd_d vd) (wf_not_integrated wf)) e => -[<-] n1.
rewrite any_condition ?(no_raise hkern) //; last first.
  by rewrite (unique_integrated e) wf_not_integrated.
rewrite e' /= squeeze_vec ?size_mkseq //.
by eexists; eexists; reflexivity.
Qed.

Lemma thm_single g : gaussian_process smolgp_ops k X diag mean sa = inr g ->
  N = 1%N -> exists e, gp_condition smolgp_ops g y None None = inl e.
Proof.
move=> hg n1; case hc: (gp_condition smolgp_ops g y None None) => [e|[lp c]]; first by exists e.
by have [] := cE wf co vd kept hkern hsa hg hc.
Qed.
End More.
