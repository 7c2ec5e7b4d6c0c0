(** The change of units of the data fails where process noise is flushed to zero. *)
From Coq Require Import Reals String Lra.
From mathcomp Require Import all_ssreflect all_algebra.
From Verif.Prelude Require Import Rstruct Psd.
From Verif.Spec Require Import Gp Lti WfKernel Cov CovOf LogNormal Data Transform.
From Verif.Model Require Import Array Jax Ssm Sequential BaseKernels Kernel Integrated Frontend
  SequentialOps Gp.
From Verif.Proofs Require Import KernelProps KernelLti KernelThms Evaluate Fit FitThms FitMore FrontThms FitExample FitRefute
  FrontDefined FrontProps DenseMore TransferThms TransferUnits TransferExample.
Set Implicit Arguments.
Unset Strict Implicit.
Unset Printing Implicit Defensive.
Local Open Scope R_scope.

Lemma flush_units_refuted : exists k X d y c kern g g', c <> 0 /\ documented k /\ sharp_kernel k /\
  size d = num_coords X /\ gp_of k X (Some (Vector d)) y kern g /\
  wf_kernel (amplify c k) /\
  valid_data X (Some (Vector [seq c ^ 2 * r | r <- d])) [seq c * v | v <- y] /\
  gaussian_process smolgp_ops (amplify c k) X (Some (Vector [seq c ^ 2 * r | r <- d])) None NoSolver = inr g' /\
  exists l, gp_log_probability smolgp_ops g y = inr (Fin l) /\
    gp_log_probability smolgp_ops g' [seq c * v | v <- y]
    <> inr (Fin (l - INR (num_coords X) * ln (Rabs c))).
Proof.
pose c := flush_sigma; have c0 : 0 < c by rewrite /c /flush_sigma; lra.
have cn : c <> 0 by lra.
pose k := SHO 1 1 1 "SHO"; pose r := / c ^ 2; pose d := [:: r; r]; pose y := [:: 0; 0].
have r0 : 0 < r by apply: Rinv_0_lt_compat; apply: pow_lt.
have wf : wf_kernel k by rewrite /=; repeat split; lra.
have vd := flush_valid r0.
have dk : documented k by right; exact/negbTE/q1_under.
have ak : amplify c k = k_flush by rewrite /= Rmult_1_r.
have ad : [seq c ^ 2 * u | u <- d] = [:: 1; 1].
  by rewrite /d /= -/(c ^ 2) (_ : c * (c * 1) * r = 1) //; rewrite /r; field.
have ay : [seq c * v | v <- y] = [:: 0; 0] by rewrite /= Rmult_0_r.
have wf' : wf_kernel k_flush by rewrite -ak; apply: amplify_wf.
have kept : steps_kept k (times X_flush).
  split; first by move=> _ _ i j; left; exact: sho_raw_0.
  case=> [|i] // _; rewrite /= (_ : flush_dt 1 - 0 = flush_dt 1); last by lra.
  by have [h _] := k_kept_noise.
have nok : names_ok k by left; split.
have [kern hk] : exists kern, forall X1 X2, kernel_evaluate false k X1 X2 = inr (kern X1 X2).
  exact: kernel_evaluate_fun.
have [kern' hk'] : exists kern, forall X1 X2, kernel_evaluate false k_flush X1 X2 = inr (kern X1 X2).
  exact: kernel_evaluate_fun.
have kk : forall X1 X2, kern' X1 X2 = c ^ 2 * kern X1 X2.
  by apply: (amplify_kern cn wf dk hk); rewrite ak.
have [g hg] := thm_defined None wf vd (or_introl erefl) nok.
have go : gp_of k X_flush (Some (Vector d)) y kern g.
  by split=> //; exists None, NoSolver; split; first by left.
have [g' [hg' ne]] := flush_log_neq hk'.
have dp : 0 < gp_det (CT 0) kern (coord_list X_flush) d by have := of_det go; rewrite varsE.
exists k, X_flush, d, y, c, kern, g, g'; rewrite ak ad ay.
do 2![split=> //]; split; first by left; exact: q1_under.
do 3![split=> //]; split; first by apply: flush_valid; lra.
split; first exact: hg'.
eexists; split; first exact: (of_log go).
rewrite varsE //.
have := log_normal_units cn kk (erefl : size d = size (coord_list X_flush)) (erefl : size y = size (coord_list X_flush)) dp.
by rewrite ad ay size_coord_list => <-.
Qed.
