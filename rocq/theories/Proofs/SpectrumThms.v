(** Spectra of the documented kernels. *)
From Coq Require Import Reals Lra String.
From mathcomp Require Import all_ssreflect all_algebra.
From Coquelicot Require Import Coquelicot.
From mathcomp.real_closed Require Import complex.
From Verif.Prelude Require Import Rstruct Psd Zmod MxCalc.
From Verif.Spec Require Import Expm Integral Lti WfKernel Spectra.
From Verif.Model Require Import Array BaseKernels Kernel Spectrum.
From Verif.Proofs Require Import Expm MxInt Leaves LeafLti KernelLti Spectrum SpectrumFourier PeriodicThms.
Set Implicit Arguments.
Unset Strict Implicit.
Unset Printing Implicit Defensive.
Import Order.TTheory GRing.Theory Num.Theory.
Local Open Scope R_scope.

Definition defined_at (m : model) (w : R) : Prop := psd_matrix m w \in unitmx.

(** ** Two by two companion matrices *)
Section Companion.
Variables p c w : R.
Let F : 'M[R]_2 := mat 2 2 [:: [:: 0; 1]; [:: - p; - c]].
Let D := (w ^ 2 - p) ^ 2 + (w * c) ^ 2.
Let G : 'M[R]_2 := mat 2 2 [:: [:: (w ^ 2 - p + c ^ 2) / D; c / D]; [:: - (p * c) / D; (w ^ 2 - p) / D]].
Let a : 'rV[R]_2 := mat 1 2 [:: [:: - (c * p) / D; (w ^ 2 - p) / D]].
Let b : 'rV[R]_2 := mat 1 2 [:: [:: w * (c ^ 2 + w ^ 2 - p) / D; w * c / D]].
Hypothesis p0 : 0 < p.
Hypothesis c0 : 0 < c.

Lemma D_pos : 0 < D.
Proof.
rewrite /D; have h1 := pow2_ge_0 (w ^ 2 - p); have h2 := pow2_ge_0 (w * c).
case: (Req_dec w 0) => [->|w0].
  have -> : (0 ^ 2 - p) ^ 2 + (0 * c) ^ 2 = p ^ 2 by ring.
  by apply: pow_lt.
have : 0 < (w * c) ^ 2 by apply: pow2_gt_0; apply: Rmult_integral_contrapositive_currified => //; lra.
lra.
Qed.
Lemma comp_inv : ((F *m F + (w * w)%:M) *m G = 1%:M)%R.
Proof.
have d0 := D_pos; rewrite /F /G; mxeq; rewrite ?mulr1n ?mulr0n /=;
  by move: d0; rewrite /D; toR => d0; field; lra.
Qed.
Lemma comp_a : (a *m F + w *: b)%R = mat 1 2 [:: [:: 1; 0]].
Proof.
by have d0 := D_pos; rewrite /F /a /b; mxeq; move: d0; rewrite /D => d0; field; lra.
Qed.
Lemma comp_b : (b *m F - w *: a)%R = 0%R.
Proof.
by have d0 := D_pos; rewrite /F /a /b; mxeq; move: d0; rewrite /D => d0; field; lra.
Qed.
Lemma comp_W q (L : 'M[R]_(2, 1)) (Qc : 'M[R]_1) : L = mat 2 1 [:: [:: 0]; [:: 1]] -> Qc = mat 1 1 [:: [:: q]] ->
  ((a *m (L *m Qc *m L^T) *m a^T) 0 0 + (b *m (L *m Qc *m L^T) *m b^T) 0 0)%R = q / D.
Proof.
by move=> -> ->; have d0 := D_pos; rewrite /a /b; mxsimp; move: d0; rewrite /D => d0; field; lra.
Qed.
End Companion.

(** ** Spectra *)
Section Rational.
Variables (l s w : R).
Hypothesis l0 : 0 < l.
Hypothesis s0 : s <> 0.

Lemma exp_defined : defined_at (exp_model l s) w.
Proof.
have i0 : 0 < / l by apply: Rinv_0_lt_compat.
have d0 : 0 < (1 / l) ^ 2 + w ^ 2 by have := pow2_ge_0 w; have := pow_lt (1 / l) 2; rewrite /Rdiv Rmult_1_l; nra.
apply: (@psd_unit (exp_model l s) w (mat 1 1 [:: [:: / ((1 / l) ^ 2 + w ^ 2)]])).
by rewrite /=; mxeq; rewrite ?mulr1n; toR; field; split; [lra|nra].
Qed.
Lemma exp_spectrum : psd_at (exp_model l s) w = spectrum_exp l s w.
Proof.
have hW := (W_psd (exp_lti l0 s0)).1.
have i0 : 0 < / l by apply: Rinv_0_lt_compat.
pose lam := 1 / l; pose D := lam ^ 2 + w ^ 2.
have lam0 : 0 < lam by rewrite /lam /Rdiv Rmult_1_l.
have d0 : 0 < D by rewrite /D; have := pow2_ge_0 w; have := pow_lt lam 2 lam0; lra.
rewrite /psd_at (psd_of_row (a := mat 1 1 [:: [:: - lam / D]]) (b := mat 1 1 [:: [:: w / D]]) hW exp_defined).
- rewrite /W /=; mxsimp; rewrite -/lam /spectrum_exp.
  have -> : l = / lam by rewrite /lam; field; lra.
  have pi := PI_neq0; have q1 : 1 + (/ lam * w) ^ 2 = D / lam ^ 2 by rewrite /D; field; lra.
  by rewrite q1 /sq; move: d0; rewrite /D => d0; field; lra.
- by rewrite /=; mxeq; rewrite -/lam; move: d0; rewrite /D => d0; field; lra.
- by rewrite /=; mxeq; rewrite -/lam; move: d0; rewrite /D => d0; field; lra.
Qed.

Lemma m32_lam_pos : 0 < sqrt 3 / l.
Proof. by apply: Rdiv_lt_0_compat => //; apply: sqrt_lt_R0; lra. Qed.
Lemma m32_F : mF (matern32_model l s) = mat 2 2 [:: [:: 0; 1]; [:: - (sqrt 3 / l) ^ 2; - (2 * (sqrt 3 / l))]].
Proof. by rewrite /= /sq; mxeq; ring. Qed.
Lemma m32_defined : defined_at (matern32_model l s) w.
Proof.
have h := m32_lam_pos; have h2 : 0 < (sqrt 3 / l) ^ 2 by apply: pow_lt.
have := @comp_inv _ (2 * (sqrt 3 / l)) w h2 ltac:(lra).
by rewrite -m32_F => /(@psd_unit (matern32_model l s)).
Qed.
Lemma m32_spectrum : psd_at (matern32_model l s) w = spectrum_matern32 l s w.
Proof.
have h := m32_lam_pos; have h2 : 0 < (sqrt 3 / l) ^ 2 by apply: pow_lt.
have c0 : 0 < 2 * (sqrt 3 / l) by lra.
have ea := comp_a w h2 c0; have eb := comp_b w h2 c0; rewrite -m32_F in ea eb.
rewrite /psd_at (psd_of_row (m := matern32_model l s) (W_psd (m32_lti l0 s0)).1 m32_defined ea eb).
rewrite /W (@comp_W _ _ w h2 c0 (4 * (sqrt 3 / l) ^ 3 * sq s)) // /spectrum_matern32.
move: (sqrt 3 / l) h h2 c0 => lam h h2 c0.
have d0 := D_pos w h2 c0; have e : (w ^ 2 - lam ^ 2) ^ 2 + (w * (2 * lam)) ^ 2 = (lam ^ 2 + w ^ 2) ^ 2 by ring.
rewrite e in d0 *; have pi := PI_neq0; have n0 : lam ^ 2 + w ^ 2 <> 0 by have := pow2_ge_0 w; lra.
by rewrite /sq; field.
Qed.
End Rational.

Section Sho.
Variables (w0 q s w : R).
Hypothesis w0p : 0 < w0.
Hypothesis q0 : 0 < q.

Lemma sho_F_comp : mF (sho_model w0 q s) = mat 2 2 [:: [:: 0; 1]; [:: - (w0 ^ 2); - (w0 / q)]].
Proof. by rewrite /= /sho_F /sq; mxeq; rewrite /Rdiv; ring. Qed.
Lemma sho_defined : defined_at (sho_model w0 q s) w.
Proof.
have h2 : 0 < w0 ^ 2 by apply: pow_lt.
have c0 : 0 < w0 / q by apply: Rdiv_lt_0_compat.
by have := comp_inv w h2 c0; rewrite -sho_F_comp => /(@psd_unit (sho_model w0 q s)).
Qed.
Lemma sho_W_sym : ((W (sho_model w0 q s))^T = W (sho_model w0 q s))%R.
Proof. by rewrite /W /= !trmx_mul trmxK mulmxA; congr (_ *m _ *m _)%R; mxeq. Qed.
Lemma sho_spectrum : psd_at (sho_model w0 q s) w = spectrum_sho w0 q s w.
Proof.
have h2 : 0 < w0 ^ 2 by apply: pow_lt.
have c0 : 0 < w0 / q by apply: Rdiv_lt_0_compat.
have ea := comp_a w h2 c0; have eb := comp_b w h2 c0; rewrite -sho_F_comp in ea eb.
rewrite /psd_at (psd_of_row (m := sho_model w0 q s) sho_W_sym sho_defined ea eb).
rewrite /W (@comp_W _ _ w h2 c0 (2 * w0 ^ 3 * sq s / q)) // /spectrum_sho.
have d0 := D_pos w h2 c0.
have e : (w0 * w / q) ^ 2 = (w * (w0 / q)) ^ 2 by rewrite /Rdiv; ring.
rewrite e; move: ((w ^ 2 - w0 ^ 2) ^ 2 + (w * (w0 / q)) ^ 2) d0 => D d0.
by have pi := PI_neq0; rewrite /sq; field; lra.
Qed.
End Sho.
