(** kernel.evaluate. *)
From Coq Require Import Reals Lra.
From mathcomp Require Import all_ssreflect all_algebra.
From mathcomp.real_closed Require Import mxtens.
From Verif.Prelude Require Import Rstruct Psd Zmod Tens.
From Verif.Spec Require Import Expm Markov Lti WfKernel Cov.
From Verif.Model Require Import Array Helpers Ssm BaseKernels IntegratedKernels Kernel.
From Verif.Proofs Require Import Expm Lti Leaves LeafLti ShoLti KernelLti.
Set Implicit Arguments.
Unset Strict Implicit.
Unset Printing Implicit Defensive.
Import Order.TTheory GRing.Theory Num.Theory.
Local Open Scope ring_scope.

Lemma observation_model_None k X : observation_model k X None = mH (denote k) X.
Proof.
elim: k => /=; try by move=> *; rewrite scale1r.
  by move=> k1 IH1 k2 IH2; congr row_mx.
by move=> k1 IH1 k2 IH2; rewrite IH1 IH2.
Qed.

Lemma kernel_evaluateE py k X1 X2 : transition_raises py k = None ->
  kernel_evaluate py k X1 X2 = inr (evaluate (denote k) X1 X2).
Proof.
by move=> h; rewrite /kernel_evaluate /kernel_transition h !observation_model_None.
Qed.

Lemma kernel_evaluate_err py k X1 X2 e : transition_raises py k = Some e ->
  kernel_evaluate py k X1 X2 = inl e.
Proof. by move=> h; rewrite /kernel_evaluate /kernel_transition h. Qed.

Lemma evaluate_sum m1 m2 X1 X2 :
  evaluate (sum_model m1 m2) X1 X2 = evaluate m1 X1 X2 + evaluate m2 X1 X2.
Proof.
rewrite /evaluate /=; case: ifP => _.
  by rewrite tr_block_mx !mul_row_block !trmx0 !mulmx0 !addr0 !add0r
             tr_row_mx mul_row_col [LHS]mxE.
by rewrite !mul_row_block !mulmx0 !addr0 !add0r tr_row_mx mul_row_col [LHS]mxE.
Qed.

Lemma tens11 (A B : 'M[R]_1) (i j : 'I_(1 * 1)) : (A *t B) i j = A 0 0 * B 0 0.
Proof. by rewrite mxE !ord1. Qed.

(** The observation row of a product has 1 * 1 = 1 rows. *)
Lemma tens_row m n p q (A : 'M[R]_(1, m)) (B : 'M[R]_(1, n)) (C : 'M[R]_(m, p)) (D : 'M[R]_(n, q)) :
  @mulmx _ 1 (m * n) (p * q) (A *t B) (C *t D) = (A *m C) *t (B *m D).
Proof. by have := tensmx_mul A B C D. Qed.
Lemma tens_row1 m n (A : 'M[R]_(1, m)) (B : 'M[R]_(1, n)) (C : 'M[R]_(m, 1)) (D : 'M[R]_(n, 1)) :
  @mulmx _ 1 (m * n) 1 (A *t B) (C *t D) = (A *m C) *t (B *m D).
Proof. by have := tensmx_mul A B C D. Qed.
Lemma tr_row m n (A : 'M[R]_(1, m)) (B : 'M[R]_(1, n)) :
  @trmx _ 1 (m * n) (A *t B) = A^T *t B^T.
Proof. by have := trmx_tens A B. Qed.

Lemma evaluate_product m1 m2 X1 X2 :
  evaluate (product_model m1 m2) X1 X2 = evaluate m1 X1 X2 * evaluate m2 X1 X2.
Proof.
rewrite /evaluate /=; case: ifP => _.
  by rewrite !tr_row ?trmx_tens !tens_row tens_row1; apply: tens11.
by rewrite !tr_row ?trmx_tens !tens_row tens_row1; apply: tens11.
Qed.

(** evaluate is the covariance function of the observed process. *)
Lemma evaluate_obs_cov m (G B : 'M[R]_(md m)) X1 X2 : lti G B ->
  (forall X Y, mH m X = mH m Y) ->
  evaluate m X1 X2
  = obs_cov (to_ssm (ideal m)) (coord_to_sortable X1) (coord_to_sortable X2).
Proof.
move=> h hH; rewrite /evaluate /obs_cov /state_cov /= -/(Rltb _ _).
rewrite (hH X1 (CT (coord_to_sortable X1))) (hH X2 (CT (coord_to_sortable X2))).
rewrite (hH (CT (coord_to_sortable X1)) (CT (coord_to_sortable X2))).
rewrite !(lt_A h) !lag0 /lag.
by case: RltbP => [/RltP -> | /RltP/negbTE ->]; rewrite !mulmxA.
Qed.

Lemma kernel_evaluate_obs_cov k X1 X2 : wf_kernel k -> const_obs k ->
  evaluate (denote k) X1 X2
  = obs_cov (to_ssm (ideal (denote k))) (coord_to_sortable X1) (coord_to_sortable X2).
Proof.
move=> /kernel_lti [G [B h]] c; apply: evaluate_obs_cov h _ => X Y.
exact: const_obsP c.
Qed.

Local Open Scope R_scope.

(** The lag |x_i - x_j|. *)
Definition alag (X1 X2 : coord) : R := Rabs (coord_to_sortable X1 - coord_to_sortable X2).

Lemma alagP X1 X2 :
  if Rltb (coord_to_sortable X1) (coord_to_sortable X2) then lag X1 X2 = alag X1 X2
  else lag X2 X1 = alag X1 X2.
Proof.
rewrite /alag /lag; case: RltbP => h; first by rewrite Rabs_left; lra.
by rewrite Rabs_pos_eq; lra.
Qed.

Lemma evaluate_constant s X1 X2 :
  evaluate (constant_model s) X1 X2 = cov_constant s (alag X1 X2).
Proof. by rewrite /evaluate /cov_constant /=; case: ifP => _; mxsimp; rewrite /sq; ring. Qed.

Lemma evaluate_exp l s X1 X2 : evaluate (exp_model l s) X1 X2 = cov_exp l s (alag X1 X2).
Proof.
have := alagP X1 X2; rewrite /evaluate /cov_exp /=; case: ifP => _ ->; mxsimp; rewrite /sq; ring.
Qed.

Lemma evaluate_matern32 l s X1 X2 :
  evaluate (matern32_model l s) X1 X2 = cov_matern32 l s (alag X1 X2).
Proof.
have := alagP X1 X2; rewrite /evaluate /cov_matern32 /= /m32_A.
by case: ifP => _ ->; mxsimp; rewrite /sq; ring.
Qed.

Lemma evaluate_matern52 l s X1 X2 : 0 < l ->
  evaluate (matern52_model l s) X1 X2 = cov_matern52 l s (alag X1 X2).
Proof.
move=> l0; have := alagP X1 X2; rewrite /evaluate /cov_matern52 /= /m52_A /m52_Pinf.
by case: ifP => _ ->; mxsimp; rewrite /sq; field; lra.
Qed.

Lemma evaluate_cosine l s X1 X2 : evaluate (cosine_model l s) X1 X2 = cov_cosine l s (alag X1 X2).
Proof.
have := alagP X1 X2; rewrite /evaluate /cov_cosine /=.
have -> : -2 * PI * alag X1 X2 / l = - (2 * PI / l * alag X1 X2) by rewrite /Rdiv; ring.
by rewrite cos_neg; case: ifP => _ ->; mxsimp; rewrite /sq; ring.
Qed.

Lemma evaluate_periodic j o l X1 X2 :
  evaluate (periodic_model j o l) X1 X2
  = periodic_q2 j l * cos (INR j * o * alag X1 X2).
Proof.
have := alagP X1 X2; rewrite /evaluate /=; move: (periodic_q2 j l) => q.
by case: ifP => _ ->; mxsimp; ring.
Qed.

Lemma evaluate_sho_critical w q s X1 X2 : allclose q (1 / 2) ->
  evaluate (sho_model w q s) X1 X2 = cov_sho_critical w s (alag X1 X2).
Proof.
move=> c; have := alagP X1 X2; rewrite /evaluate /cov_sho_critical /= /sho_A c /sho_A_critical /sho_Pinf.
by case: ifP => _ ->; mxsimp; rewrite /sq; ring.
Qed.

Lemma evaluate_sho_under w q s X1 X2 : 0 < w -> 1 / 2 < q -> ~~ allclose q (1 / 2) ->
  evaluate (sho_model w q s) X1 X2 = cov_sho_under w q s (alag X1 X2).
Proof.
move=> w0 q0 c; have := alagP X1 X2; rewrite /evaluate /cov_sho_under /= /sho_A (negbTE c).
have -> : Rltb (1 / 2) q by apply/RltbP.
have n0 : 0 < sho_eta q by apply: eta_pos; lra.
rewrite /sho_A_underdamped /sho_Pinf -[eta q]/(sho_eta q); move: (sho_eta q) n0 => n n0.
have e x : - (1 / 2) * w * x / q = - w * x / (2 * q) by field; lra.
by case: ifP => _ ->; mxsimp; rewrite /sq e; field; lra.
Qed.

Lemma evaluate_sho_over w q s X1 X2 : 0 < w -> 0 < q -> q < 1 / 2 -> ~~ allclose q (1 / 2) ->
  evaluate (sho_model w q s) X1 X2 = cov_sho_over w q s (alag X1 X2).
Proof.
move=> w0 q0 q1 c; have := alagP X1 X2; rewrite /evaluate /cov_sho_over /= /sho_A (negbTE c).
have -> : Rltb (1 / 2) q = false by apply/RltbP; lra.
have n0 : 0 < sho_eta q by apply: eta_pos; lra.
rewrite /sho_A_overdamped /sho_Pinf -[eta q]/(sho_eta q); move: (sho_eta q) n0 => n n0.
have e x : - (1 / 2) * w * x / q = - w * x / (2 * q) by field; lra.
by case: ifP => _ ->; mxsimp; rewrite /sq e; field; lra.
Qed.
