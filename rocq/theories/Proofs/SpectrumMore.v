(** Matern-5/2, decay of the transition matrices, and what psd does elsewhere. *)
From Coq Require Import Reals Lra String.
From mathcomp Require Import all_ssreflect all_algebra.
From Coquelicot Require Import Coquelicot.
From mathcomp.real_closed Require Import complex.
From Verif.Prelude Require Import Rstruct Psd Zmod MxCalc.
From Verif.Spec Require Import Expm Integral Lti WfKernel Spectra.
From Verif.Model Require Import Array BaseKernels Kernel Spectrum.
From Verif.Proofs Require Import Expm MxInt Leaves LeafLti KernelLti Spectrum SpectrumFourier PeriodicThms SpectrumThms.
Set Implicit Arguments.
Unset Strict Implicit.
Unset Printing Implicit Defensive.
Import Order.TTheory GRing.Theory Num.Theory.
Local Open Scope R_scope.

Section M52.
Variables (l s w : R).
Hypothesis l0 : 0 < l.
Hypothesis s0 : s <> 0.
Let k := sqrt 5 / l.
Let D := (k ^ 2 + w ^ 2) ^ 3.
Let x := - k ^ 3 + 3 * w ^ 2 * k.
Let y := 3 * k ^ 2 * w - w ^ 3.
Let v := w ^ 2.
Let G : 'M[R]_3 := mat 3 3
  [:: [:: ((v - 3 * k ^ 2) * (v + 6 * k ^ 2) + 24 * k ^ 4) / D; 8 * k ^ 3 / D; - (v - 3 * k ^ 2) / D];
      [:: (- 9 * k ^ 5 + k ^ 3 * (v + 6 * k ^ 2)) / D; (v * (v + 6 * k ^ 2) - 3 * k ^ 4) / D; (- k ^ 3 + 3 * k * v) / D];
      [:: (- 8 * k ^ 6 - 3 * k ^ 4 * (v - 3 * k ^ 2)) / D; - 8 * k ^ 3 * v / D; v * (v - 3 * k ^ 2) / D]].
Let a : 'rV[R]_3 := mat 1 3 [:: [:: ((3 * k ^ 2 - w ^ 2) * x - 3 * w * k * y) / D; (3 * k * x - w * y) / D; x / D]].
Let b : 'rV[R]_3 := mat 1 3 [:: [:: ((3 * k ^ 2 - w ^ 2) * y + 3 * w * k * x) / D; (3 * k * y + w * x) / D; y / D]].

Lemma k0 : 0 < k.
Proof. by apply: Rdiv_lt_0_compat => //; apply: sqrt_lt_R0; lra. Qed.
Lemma n0 : k ^ 2 + w ^ 2 <> 0.
Proof. by have := pow2_ge_0 w; have := pow_lt k 2 k0; lra. Qed.
Lemma m52_defined : defined_at (matern52_model l s) w.
Proof.
have h := n0; have hk := k0; apply: (@psd_unit (matern52_model l s) w G).
rewrite /= /m52_F -/k /G /sq /v /D; mxeq; rewrite ?mulr1n ?mulr0n; toR; field; lra.
Qed.
Lemma m52_spectrum : psd_at (matern52_model l s) w = spectrum_matern52 l s w.
Proof.
have h := n0; have hk := k0.
have ea : (a *m mF (matern52_model l s) + w *: b)%R = mH (matern52_model l s) (CT 0).
  by rewrite /= /m52_F -/k /a /b /sq /x /y /D; mxeq; field; lra.
have eb : (b *m mF (matern52_model l s) - w *: a)%R = 0%R.
  by rewrite /= /m52_F -/k /a /b /sq /x /y /D; mxeq; field; lra.
rewrite /psd_at (psd_of_row (m := matern52_model l s) (W_psd (m52_lti l0 s0)).1 m52_defined ea eb).
have pi := PI_neq0.
rewrite /W /= -/k /spectrum_matern52 -/k /a /b; mxsimp; rewrite /sq /x /y /D; field.
by repeat split; lra.
Qed.
End M52.

(** ** Decay *)
Definition dec (f : R -> R) := is_lim f p_infty 0.

Lemma dec_ext f g : (forall T, f T = g T) -> dec f -> dec g.
Proof. by move=> e; apply: is_lim_ext. Qed.
Lemma dec_add f g : dec f -> dec g -> dec (fun T => f T + g T).
Proof. by move=> h1 h2; rewrite /dec -[0]Rplus_0_r; apply: is_lim_plus'. Qed.
Lemma dec_bnd c f C : (forall T, Rabs (c T) <= C) -> dec f -> dec (fun T => c T * f T).
Proof. exact: lim_bounded. Qed.
Lemma dec_scal c f : dec f -> dec (fun T => c * f T).
Proof. by apply: (dec_bnd (C := Rabs c)) => T; apply: Rle_refl. Qed.
Lemma dec_powexp n k : 0 < k -> dec (fun T => T ^ n * exp (- (k * T))).
Proof.
move=> k0; pose C := INR (fact n.+1) / k ^ n.+1.
have kn : 0 < k ^ n.+1 by apply: pow_lt.
have C0 : 0 < C by apply: Rdiv_lt_0_compat => //; apply: INR_fact_lt_0.
have l2 : dec (fun T => C * / T).
  apply: dec_scal; rewrite /dec.
  by have := is_lim_inv (fun T => T) p_infty p_infty (is_lim_id p_infty); apply.
apply: (is_lim_le_le_loc (fun=> 0) _ _ _ _ _ _ l2); last exact: is_lim_const.
exists 0 => T T0; have e0 := exp_pos (- (k * T)); have Tn := pow_lt T n T0.
split; first by nra.
have := @exp_ge_pow n.+1 (k * T) ltac:(nra).
rewrite exp_Ropp Rpow_mult_distr => h.
have eT := exp_pos (k * T); have f0 := INR_fact_lt_0 n.+1.
apply: (Rmult_le_reg_r (exp (k * T) * (T * k ^ n.+1))); first by apply: Rmult_lt_0_compat => //; nra.
have -> : T ^ n * / exp (k * T) * (exp (k * T) * (T * k ^ n.+1)) = k ^ n.+1 * T ^ n.+1 by simpl; field; lra.
have -> : C * / T * (exp (k * T) * (T * k ^ n.+1)) = INR (fact n.+1) * exp (k * T).
  by rewrite /C; field; lra.
move: h => /(Rmult_le_compat_l (INR (fact n.+1)) _ _ (Rlt_le _ _ f0)); apply: Rle_trans.
by right; field; lra.
Qed.
Lemma dec_poly c0 c1 c2 k : 0 < k -> dec (fun T => (c0 + c1 * T + c2 * T ^ 2) * exp (- (k * T))).
Proof.
move=> k0.
apply: (@dec_ext (fun T => c0 * (T ^ 0 * exp (- (k * T))) + c1 * (T ^ 1 * exp (- (k * T))) + c2 * (T ^ 2 * exp (- (k * T))))).
  by move=> T; ring.
by apply: dec_add; [apply: dec_add|]; apply: dec_scal; apply: dec_powexp.
Qed.

Definition decays (m : model) : Prop := forall i j, dec (fun T => mA m (CT 0) (CT T) i j).

Lemma exp_decays l s : 0 < l -> decays (exp_model l s).
Proof.
move=> l0; have k0 : 0 < / l by apply: Rinv_0_lt_compat.
move=> i j; ordcase i; ordcase j; apply: dec_ext (dec_poly 1 0 0 k0) => T; mxsimp.
rewrite /lag /= Rminus_0_r (_ : - T / l = - (/ l * T)); last by rewrite /Rdiv; ring.
by ring.
Qed.
Ltac polyentry k k0 c0 c1 c2 :=
  let T := fresh "T" in
  by apply: dec_ext (dec_poly c0 c1 c2 k0) => T; mxsimp; rewrite /lag /= Rminus_0_r -?/k /sq ?(Ropp_mult_distr_l_reverse k T);
     field.
Lemma m32_decays l s : 0 < l -> decays (matern32_model l s).
Proof.
move=> l0; have k0 := m32_lam_pos l0; pose k := sqrt 3 / l.
move=> i j; ordcase i; ordcase j;
  first [polyentry k k0 1 k 0 | polyentry k k0 0 1 0 | polyentry k k0 0 (- k ^ 2) 0 | polyentry k k0 1 (- k) 0].
Qed.
Lemma m52_decays l s : 0 < l -> decays (matern52_model l s).
Proof.
move=> l0; have k0 := k0 l0; pose k := sqrt 5 / l.
move=> i j; ordcase i; ordcase j; rewrite /= /m52_A;
  first [ polyentry k k0 1 k (k ^ 2 / 2) | polyentry k k0 0 1 k | polyentry k k0 0 0 (1 / 2)
        | polyentry k k0 0 0 (- (k ^ 3 / 2)) | polyentry k k0 1 k (- k ^ 2) | polyentry k k0 0 1 (- (k / 2))
        | polyentry k k0 0 (- k ^ 3) (k ^ 4 / 2) | polyentry k k0 0 (-3 * k ^ 2) (k ^ 3)
        | polyentry k k0 1 (-2 * k) (k ^ 2 / 2)].
Qed.

Lemma dec_trig c1 c2 e k : 0 < k -> dec (fun T => (c1 * cos (e * T) + c2 * sin (e * T)) * exp (- (k * T))).
Proof.
move=> k0; have h0 := dec_poly 1 0 0 k0.
have h : dec (fun T => exp (- (k * T))) by apply: dec_ext h0 => T; ring.
apply: (dec_bnd (C := Rabs c1 + Rabs c2)) h => T.
apply: Rle_trans (Rabs_triang _ _) _; rewrite !Rabs_mult.
have h1 := Rabs_pos c1; have h2 := Rabs_pos c2.
have h3 : Rabs (cos (e * T)) <= 1 by apply/Rabs_le_between; have := COS_bound (e * T); lra.
have h4 : Rabs (sin (e * T)) <= 1 by apply/Rabs_le_between; have := SIN_bound (e * T); lra.
by nra.
Qed.
Lemma dec_hyp c1 c2 e k : e < k -> - e < k -> dec (fun T => (c1 * cosh (e * T) + c2 * sinh (e * T)) * exp (- (k * T))).
Proof.
move=> h1 h2.
apply: (@dec_ext (fun T => (c1 + c2) / 2 * (1 * exp (- ((k - e) * T))) + (c1 - c2) / 2 * (1 * exp (- ((k + e) * T))))).
  move=> T; rewrite /cosh /sinh.
  have -> : - ((k - e) * T) = e * T + - (k * T) by ring.
  have -> : - ((k + e) * T) = - (e * T) + - (k * T) by ring.
  by rewrite !exp_plus; field.
have hh x : 0 < x -> dec (fun T => 1 * exp (- (x * T))).
  by move=> x0; apply: dec_ext (dec_poly 1 0 0 x0) => T; ring.
by apply: dec_add; apply: dec_scal; apply: hh; lra.
Qed.
Lemma half_close : allclose (1 / 2) (1 / 2).
Proof. by rewrite /allclose; apply/RlebP; rewrite Rminus_eq_0 Rabs_R0; have := Rabs_pos (1 / 2); lra. Qed.

Lemma sho_decays w q s : 0 < w -> 0 < q -> ~~ allclose q (1 / 2) \/ q = 1 / 2 -> decays (sho_model w q s).
Proof.
move=> w0 q0 sh.
have e0 T : lag (CT 0) (CT T) = T by rewrite /lag /= Rminus_0_r.
case ac: (allclose q (1 / 2)).
  have k0 := w0; pose k := w.
  move=> i j; ordcase i; ordcase j; rewrite /= /sho_A ac /sho_A_critical;
    first [polyentry k k0 1 k 0 | polyentry k k0 0 1 0 | polyentry k k0 0 (- k ^ 2) 0 | polyentry k k0 1 (- k) 0].
have hq : q <> 1 / 2 by move=> e; move: ac; rewrite e half_close.
pose n := sho_eta q; pose k := w / (2 * q); pose e := n * w.
have k0 : 0 < k by apply: Rdiv_lt_0_compat; lra.
have iq : 0 < / q by apply: Rinv_0_lt_compat.
have qq : 1 - 1 / (4 * q ^ 2) <> 0.
  move=> h; have : (2 * q - 1) * (2 * q + 1) = 0.
    by transitivity ((1 - 1 / (4 * q ^ 2)) * (4 * q ^ 2)); [field; lra | rewrite h; ring].
  by move=> /Rmult_integral[]; lra.
have n0 : 0 < n by apply: sqrt_lt_R0; apply: Rabs_pos_lt.
have f0 : 2 * n * q <> 0 by nra.
have ee T : - (1 / 2) * w * T / q = - (k * T) by rewrite /k; field; lra.
have xx T : n * w * T = e * T by [].
move=> i j; case: (Rlt_dec (1 / 2) q) => hb.
  have eA T : mA (sho_model w q s) (CT 0) (CT T) = sho_A_underdamped w q T.
    by rewrite /= e0 /sho_A ac; case: RltbP.
  apply: (dec_ext (f := fun T => sho_A_underdamped w q T i j)) => [T|]; first by rewrite eA.
  have L c1 c2 := @dec_trig c1 c2 e k k0.
  ordcase i; ordcase j; rewrite /sho_A_underdamped -/n.
  - by apply: dec_ext (L 1 (/ (2 * n * q))) => T; mxsimp; rewrite ee xx; field; lra.
  - by apply: dec_ext (L 0 (/ (w * n))) => T; mxsimp; rewrite ee xx; field; lra.
  - by apply: dec_ext (L 0 (- w / n)) => T; mxsimp; rewrite ee xx; field; lra.
  - by apply: dec_ext (L 1 (- / (2 * n * q))) => T; mxsimp; rewrite ee xx; field; lra.
have eA T : mA (sho_model w q s) (CT 0) (CT T) = sho_A_overdamped w q T.
  by rewrite /= e0 /sho_A ac; case: RltbP.
apply: (dec_ext (f := fun T => sho_A_overdamped w q T i j)) => [T|]; first by rewrite eA.
have e_lt : e < k.
  rewrite /e /k (_ : w / (2 * q) = 1 / (2 * q) * w); last by field; lra.
  apply: Rmult_lt_compat_r => //.
  rewrite -[X in _ < X]sqrt_Rsqr; last by apply: Rlt_le; apply: Rdiv_lt_0_compat; lra.
  apply: sqrt_lt_1_alt; split; first exact: Rabs_pos.
  rewrite Rabs_left1; last first.
    have : 1 <= 1 / (4 * q ^ 2).
      apply: (Rmult_le_reg_r (4 * q ^ 2)); first by nra.
      by rewrite /Rdiv Rmult_assoc Rinv_l; nra.
    by lra.
  rewrite /Rsqr (_ : 1 / (2 * q) * (1 / (2 * q)) = 1 / (4 * q ^ 2)); last by field; lra.
  by lra.
have e0' : 0 < e by apply: Rmult_lt_0_compat.
have L c1 c2 := @dec_hyp c1 c2 e k e_lt ltac:(lra).
ordcase i; ordcase j; rewrite /sho_A_overdamped -/n.
- by apply: dec_ext (L 1 (/ (2 * n * q))) => T; mxsimp; rewrite ee xx; field; lra.
- by apply: dec_ext (L 0 (/ (w * n))) => T; mxsimp; rewrite ee xx; field; lra.
- by apply: dec_ext (L 0 (- w / n)) => T; mxsimp; rewrite ee xx; field; lra.
- by apply: dec_ext (L 1 (- / (2 * n * q))) => T; mxsimp; rewrite ee xx; field; lra.
Qed.
