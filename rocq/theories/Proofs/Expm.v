(** Properties of the matrix exponential: convergence, derivative, group law and
    uniqueness of solutions of X' = M X. *)
From Coq Require Import Reals Lra.
From mathcomp Require Import all_ssreflect all_algebra.
From Coquelicot Require Import Coquelicot.
From Verif.Prelude Require Import Rstruct Zmod MxCalc.
From Verif.Spec Require Import Expm.
Set Implicit Arguments.
Unset Strict Implicit.
Unset Printing Implicit Defensive.
Import Order.TTheory GRing.Theory Num.Theory.
Local Open Scope ring_scope.

Lemma fact_pos k : Rlt R0 (INR (fact k)). Proof. exact: INR_fact_lt_0. Qed.

Lemma pow_fact_le_exp (c : R) k : Rle R0 c ->
  Rle (Rmult (Rinv (INR (fact k))) (pow c k)) (exp c).
Proof.
move=> c0.
have tp i : Rle R0 (Rmult (Rinv (INR (fact i))) (pow c i)).
  apply: Rmult_le_pos; last exact: pow_le.
  by left; apply: Rinv_0_lt_compat; apply: fact_pos.
have g : Un_growing (E1 c).
  by move=> i; rewrite /E1 /=; have := tp i.+1; rewrite /=; lra.
have := growing_ineq (E1 c) (exp c) g (E1_cvg c) k.
have : Rle (Rmult (Rinv (INR (fact k))) (pow c k)) (E1 c k).
  rewrite /E1; case: k => [|k] /=; first lra.
  have : Rle R0 (sum_f_R0 (fun i => Rmult (Rinv (INR (fact i))) (pow c i)) k).
    by apply: cond_pos_sum.
  rewrite /=; lra.
lra.
Qed.

Section Expm.
Variable n : nat.
Implicit Types M X : 'M[R]_n.

Definition mxnorm M : R := \sum_i \sum_j `|M i j|.

Lemma mxnorm_ge0 M : 0 <= mxnorm M.
Proof. by apply: sumr_ge0 => i _; apply: sumr_ge0. Qed.

Lemma mxpow_bound M k i j : `|mxpow M k i j| <= mxnorm M ^+ k.
Proof.
elim: k i j => [|k IH] i j /=.
  by rewrite mxE expr0; case: (i == j); rewrite ?mulr1n ?mulr0n ?normr1 ?normr0 ?ler01.
rewrite mxE exprS; apply: le_trans (ler_norm_sum _ _ _) _.
apply: (@le_trans _ _ (\sum_l `|M i l| * mxnorm M ^+ k)).
  by apply: ler_sum => l _; rewrite normrM ler_wpmul2l.
rewrite -mulr_suml; apply: ler_wpmul2r; first by rewrite exprn_ge0 // mxnorm_ge0.
rewrite /mxnorm [X in _ <= X](bigD1 i) //= ler_addl.
by apply: sumr_ge0 => i' _; apply: sumr_ge0.
Qed.

Lemma expm_radius M i j : CV_radius (expm_term M i j) = p_infty.
Proof.
have hb (r : R) : Rbar_le r (CV_radius (expm_term M i j)).
  have [ub _] := CV_radius_bounded (expm_term M i j).
  apply: ub; exists (exp (Rmult (mxnorm M) (Rabs r))) => k.
  rewrite /expm_term.
  have m0 : Rle R0 (mxnorm M) by apply/RleP; apply: mxnorm_ge0.
  have hc : Rle R0 (Rmult (mxnorm M) (Rabs r)).
    by apply: Rmult_le_pos => //; apply: Rabs_pos.
  have := pow_fact_le_exp k hc.
  have hp : Rle (Rabs (mxpow M k i j)) (pow (mxnorm M) k).
    by have /RleP := mxpow_bound M k i j; rewrite RpowE.
  set f := INR (fact k); have fp : Rlt R0 f by apply: fact_pos.
  apply: Rle_trans; rewrite Rpow_mult_distr /Rdiv !Rabs_mult -RPow_abs Rabs_inv.
  rewrite (Rabs_pos_eq f); last lra.
  rewrite -Rmult_assoc [Rmult (Rinv f) _]Rmult_comm.
  apply: Rmult_le_compat_r; first by apply: pow_le; apply: Rabs_pos.
  apply: Rmult_le_compat_r => //.
  by left; apply: Rinv_0_lt_compat.
case e : (CV_radius _) => [x||] //.
- by have := hb (Rplus x 1); rewrite e /=; lra.
- by have := hb R0; rewrite e.
Qed.

Lemma expm_pseries M i j t : ex_pseries (expm_term M i j) t.
Proof. by apply: CV_radius_inside; rewrite expm_radius. Qed.

Lemma mxpowZ M (t : R) k : mxpow (t *: M) k = t ^+ k *: mxpow M k.
Proof.
elim: k => [|k IH] /=; first by rewrite expr0 scale1r.
by rewrite IH -scalemxAl -scalemxAr scalerA exprS.
Qed.

(** Convergence of the defining series at every entry of every matrix. *)
Lemma expm_cvg M i j : ex_series (expm_term M i j).
Proof.
have := expm_pseries M i j R1; apply: ex_series_ext => k.
rewrite pow_n_pow pow1 /scal /= /mult /=; ring.
Qed.

Lemma expmE M t i j : expm (t *: M) i j = PSeries (expm_term M i j) t.
Proof.
rewrite mxE /PSeries; apply: Series_ext => k.
by rewrite /expm_term mxpowZ mxE RpowE; toR; rewrite /Rdiv; ring.
Qed.

Lemma mxpowSr M k : mxpow M k.+1 = mxpow M k *m M.
Proof.
elim: k => [|k IH] /=; first by rewrite mulmx1 mul1mx.
by rewrite -mulmxA -IH.
Qed.

Lemma is_series0 : is_series (fun=> R0) R0.
Proof.
apply: (filterlim_ext (fun=> R0)) => [k|]; last exact: filterlim_const.
by rewrite /sum_n; symmetry; apply: (@sum_n_m_const_zero R_AbelianGroup).
Qed.

Lemma series_sum (I : Type) (r : seq I) (f : I -> nat -> R) :
  (forall i, ex_series (f i)) ->
  is_series (fun k => \sum_(i <- r) f i k) (\sum_(i <- r) Series (f i)).
Proof.
move=> h; elim: r => [|i r IH].
  rewrite big_nil; apply: is_series_ext is_series0 => k.
  by rewrite big_nil.
rewrite big_cons; apply: is_series_ext (is_series_plus _ _ _ _ (Series_correct _ (h i)) IH) => k.
by rewrite big_cons.
Qed.

Lemma expm_derl M t : mxd (fun s => expm (s *: M)) t (M *m expm (t *: M)).
Proof.
move=> i j; apply: (der_ext (f := PSeries (expm_term M i j))) => [s|].
  by rewrite expmE.
have hr : Rbar_lt (Rabs t) (CV_radius (expm_term M i j)) by rewrite expm_radius.
apply: der_eq (is_derive_PSeries _ _ hr) _.
rewrite mxE /PSeries; apply: is_series_unique.
pose f l k := Rmult (M i l) (Rmult (expm_term M l j k) (pow t k)).
have ef l : ex_series (fun k => Rmult (expm_term M l j k) (pow t k)).
  have := expm_pseries M l j t; apply: ex_series_ext => k.
  by rewrite pow_n_pow /scal /= /mult /=; ring.
have hf l : ex_series (f l) by apply: ex_series_scal.
have := @series_sum _ (index_enum (ordinal_finType n)) f hf.
have -> : \sum_(l <- index_enum (ordinal_finType n)) Series (f l) =
          \sum_l M i l * expm (t *: M) l j.
  by apply: eq_bigr => l _; rewrite /f Series_scal_l expmE.
apply: is_series_ext => k.
rewrite /PS_derive /expm_term /f -!/(mxpow _ _) (_ : mxpow M k.+1 = M *m mxpow M k) //.
rewrite mxE.
have fk : INR (fact k.+1) = Rmult (INR k.+1) (INR (fact k)) by rewrite -mult_INR.
have kp : INR k.+1 <> R0 by apply: not_0_INR.
have fp : INR (fact k) <> R0 by apply: INR_fact_neq_0.
have -> : Rmult (Rmult (INR k.+1) (Rdiv (\sum_l M i l * mxpow M k l j) (INR (fact k.+1)))) (pow t k)
  = Rmult (\sum_l M i l * mxpow M k l j) (Rdiv (pow t k) (INR (fact k))).
  by rewrite fk; field.
rewrite -[RHS]RmultE mulr_suml; apply: eq_bigr => l _.
by rewrite /expm_term; toR; rewrite /Rdiv; ring.
Qed.

Lemma expm_derr M t : mxd (fun s => expm (s *: M)) t (expm (t *: M) *m M).
Proof.
have e : M *m expm (t *: M) = expm (t *: M) *m M.
  apply/matrixP=> i j; rewrite !mxE.
  pose f l k := Rmult (M i l) (expm_term (t *: M) l j k).
  pose g l k := Rmult (expm_term (t *: M) i l k) (M l j).
  have hf l : ex_series (f l) by apply: ex_series_scal; apply: expm_cvg.
  have hg l : ex_series (g l).
    apply: (ex_series_ext (fun k => Rmult (M l j) (expm_term (t *: M) i l k))) => [k|].
      by rewrite /g Rmult_comm.
    by apply: ex_series_scal; apply: expm_cvg.
  have h1 := @series_sum _ (index_enum (ordinal_finType n)) f hf.
  have h2 := @series_sum _ (index_enum (ordinal_finType n)) g hg.
  have e1 : \sum_l M i l * expm (t *: M) l j = \sum_l Series (f l).
    by apply: eq_bigr => l _; rewrite mxE /f Series_scal_l.
  have e2 : \sum_l expm (t *: M) i l * M l j = \sum_l Series (g l).
    by apply: eq_bigr => l _; rewrite mxE /g Series_scal_r.
  rewrite e1 e2 -(is_series_unique _ _ h1) -(is_series_unique _ _ h2).
  apply: Series_ext => k; rewrite /f /g /expm_term.
  transitivity (Rdiv ((M *m mxpow (t *: M) k) i j) (INR (fact k))).
    rewrite mxE -[RHS]RdivE mulr_suml; apply: eq_bigr => l _.
    by toR; rewrite /Rdiv; ring.
  have -> : M *m mxpow (t *: M) k = mxpow (t *: M) k *m M.
    elim: (k) => [|k' IH] /=; first by rewrite mulmx1 mul1mx.
    by rewrite -!scalemxAl -scalemxAr -[in RHS]mulmxA -IH.
  rewrite mxE -[LHS]RdivE mulr_suml; apply: eq_bigr => l _.
  by toR; rewrite /Rdiv; ring.
by apply: mxd_eq (expm_derl M t) e.
Qed.

Lemma expm0 : expm (0 : 'M[R]_n) = 1%:M.
Proof.
apply/matrixP=> i j; rewrite -(scale0r 0) expmE.
by rewrite PSeries_0 /expm_term /=; toR; field.
Qed.

Lemma expm_neg_mul M t : expm (t *: M) *m expm ((- t) *: M) = 1%:M.
Proof.
pose f s := expm (s *: M) *m expm ((- s) *: M).
have h x : mxd f x 0.
  apply: mxd_eq.
    apply: (mxd_mul (expm_derr M x)).
    exact: (mxd_neg (expm_derl M (- x))).
  by rewrite mulmxN mulmxA subrr.
have := mxd0_const h t 0; rewrite /f => ->.
by rewrite oppr0 scale0r expm0 mulmx1.
Qed.

(** Uniqueness of the solution of X' = M X. *)
Lemma expm_unique p M (X : R -> 'M[R]_(n, p)) :
  (forall t, mxd X t (M *m X t)) -> forall t, X t = expm (t *: M) *m X 0.
Proof.
move=> h t.
pose Y s := expm ((- s) *: M) *m X s.
have hY x : mxd Y x 0.
  apply: mxd_eq.
    apply: (mxd_mul _ (h x)).
    exact: (mxd_neg (expm_derr M (- x))).
  by rewrite mulNmx mulmxA addNr.
have := mxd0_const hY t 0; rewrite /Y oppr0 scale0r expm0 mul1mx => <-.
by rewrite mulmxA expm_neg_mul mul1mx.
Qed.

(** The same for X' = X M. *)
Lemma expm_unique_r p M (X : R -> 'M[R]_(p, n)) :
  (forall t, mxd X t (X t *m M)) -> forall t, X t = X 0 *m expm (t *: M).
Proof.
move=> h t.
pose Y s := X s *m expm ((- s) *: M).
have hY x : mxd Y x 0.
  apply: mxd_eq.
    apply: (mxd_mul (h x)).
    exact: (mxd_neg (expm_derl M (- x))).
  by rewrite mulmxN mulmxA subrr.
have := mxd0_const hY t 0; rewrite /Y oppr0 scale0r expm0 mulmx1 => <-.
have e : expm ((- t) *: M) *m expm (t *: M) = 1%:M.
  by have := expm_neg_mul M (- t); rewrite opprK.
by rewrite -mulmxA e mulmx1.
Qed.

Lemma expm_unit M t : expm (t *: M) \in unitmx.
Proof. by have [] := mulmx1_unit (expm_neg_mul M t). Qed.

Lemma expm_add M a b : expm ((a + b) *: M) = expm (a *: M) *m expm (b *: M).
Proof.
have h x : mxd (fun s => expm ((s + b) *: M)) x (M *m expm ((x + b) *: M)).
  exact: (mxd_shift (expm_derl M (x + b))).
by have := expm_unique h a; rewrite add0r.
Qed.

Lemma expm_comm M t : M *m expm (t *: M) = expm (t *: M) *m M.
Proof.
apply/matrixP=> i j; have := expm_derl M t i j; have := expm_derr M t i j.
by move=> /is_derive_unique e1 /is_derive_unique e2; rewrite -e1 -e2.
Qed.

End Expm.

Lemma mxpow_tr n (M : 'M[R]_n) k : mxpow M^T k = (mxpow M k)^T.
Proof.
elim: k => [|k IH]; first by rewrite /= trmx1.
by rewrite (mxpowSr M) trmx_mul /= IH.
Qed.

Lemma expm_tr n (M : 'M[R]_n) : expm M^T = (expm M)^T.
Proof.
apply/matrixP=> i j; rewrite !mxE; apply: Series_ext => k.
by rewrite /expm_term mxpow_tr mxE.
Qed.
