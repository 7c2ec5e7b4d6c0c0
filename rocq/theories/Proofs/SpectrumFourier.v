(** The power spectral density is the Fourier transform of the covariance function. *)
From Coq Require Import Reals Lra.
From mathcomp Require Import all_ssreflect all_algebra.
From Coquelicot Require Import Coquelicot.
From mathcomp.real_closed Require Import complex.
From Verif.Prelude Require Import Rstruct Psd Zmod MxCalc.
From Verif.Spec Require Import Expm Integral Lti Spectra.
From Verif.Model Require Import Array BaseKernels Spectrum.
From Verif.Proofs Require Import Expm MxInt Spectrum.
Set Implicit Arguments.
Unset Strict Implicit.
Unset Printing Implicit Defensive.
Import Order.TTheory GRing.Theory Num.Theory.
Local Open Scope ring_scope.

Lemma lim_sum (I : Type) (r : seq I) (f : I -> R -> R) :
  (forall i, is_lim (f i) p_infty R0) -> is_lim (fun T => \sum_(i <- r) f i T) p_infty R0.
Proof.
move=> h; elim: r => [|i r IH].
  by apply: (is_lim_ext (fun=> R0)) => [T|]; [rewrite big_nil|apply: is_lim_const].
apply: (is_lim_ext (fun T => Rplus (f i T) (\sum_(i <- r) f i T))) => [T|]; first by rewrite big_cons.
have -> : Finite R0 = Finite (Rplus R0 R0) by congr Finite; rewrite Rplus_0_r.
by apply: is_lim_plus'; [apply: h|apply: IH].
Qed.
Lemma lim_bounded (c e : R -> R) (C : R) : (forall T, Rle (Rabs (c T)) C) ->
  is_lim e p_infty R0 -> is_lim (fun T => c T * e T) p_infty R0.
Proof.
move=> hc he.
apply/is_lim_spec => eps /=.
have C0 : Rlt R0 (Rplus (Rabs C) 1) by have := Rabs_pos C; lra.
have e0 : Rlt R0 (Rdiv eps (Rplus (Rabs C) 1)) by apply: Rdiv_lt_0_compat => //; apply: cond_pos.
have /is_lim_spec /(_ (mkposreal _ e0)) [M hM] := he.
exists M => T /hM /=; rewrite !Rminus_0_r -[(_ * _)%R]/(Rmult _ _) Rabs_mult => h.
have h1 := Rabs_pos (e T); have h2 := hc T; have h3 := Rabs_pos (c T); have h4 := Rle_abs C.
have h5 : Rlt (Rmult (Rabs (e T)) (Rplus (Rabs C) 1)) eps.
  have := Rmult_lt_compat_r _ _ _ C0 h; rewrite /Rdiv Rmult_assoc Rinv_l ?Rmult_1_r //; lra.
by nra.
Qed.

Section Fourier.
Variables (m : model) (w : R).
Hypothesis hd : declared_lti m.
Hypothesis hH : forall X Y, mH m X = mH m Y.
Hypothesis hu : psd_matrix m w \in unitmx.
Hypothesis hA : forall i j, is_lim (fun T => mA m (CT R0) (CT T) i j) p_infty R0.
Notation F := (mF m).
Notation P := (mPinf m).
Notation H := (mH m (CT R0)).

Lemma W_psd : psdmx (W m). Proof. exact: lt_B hd. Qed.
Lemma W_lyap : W m = - (F *m P + P *m F^T).
Proof. by apply/eqP; rewrite -addr_eq0 addrC; apply/eqP; exact: (lt_lyap hd). Qed.

Variables a b : 'rV[R]_(md m).
Hypothesis ea : a *m F + w *: b = H.
Hypothesis eb : b *m F - w *: a = 0.

Lemma t11 (A : 'M[R]_1) : A^T = A.
Proof. by apply/matrixP=> i j; rewrite mxE !ord1. Qed.
Lemma quad : a *m W m *m a^T + b *m W m *m b^T = - 2%:R *: (a *m P *m H^T).
Proof.
have PT : P^T = P by exact: (lt_P hd).1.
have sw (x y : 'rV[R]_(md m)) : x *m P *m y^T = y *m P *m x^T.
  by rewrite -[LHS]t11 !trmx_mul trmxK PT mulmxA.
have half (x : 'rV[R]_(md m)) : x *m W m *m x^T = - 2%:R *: (x *m F *m P *m x^T).
  rewrite W_lyap mulmxN mulNmx mulmxDr mulmxDl !mulmxA.
  have -> : x *m P *m F^T *m x^T = x *m F *m P *m x^T.
    by rewrite -[LHS]t11 !trmx_mul !trmxK PT !mulmxA.
  by rewrite -mulr2n -scaler_nat scaleNr.
have eaF : a *m F = H - w *: b by rewrite -ea addrK.
have ebF : b *m F = w *: a by apply/eqP; rewrite -subr_eq0 eb.
rewrite !half eaF ebF -scalerDr; congr (_ *: _).
rewrite !mulmxBl -!scalemxAl [b *m P *m a^T]sw subrK.
exact: sw.
Qed.

Definition Gm (T : R) : 'M[R]_1 := (cos (w * T) *: a + sin (w * T) *: b) *m expm (T *: F) *m P *m H^T.

Lemma Gm_der T : mxd Gm T (cos (w * T) *: (H *m expm (T *: F) *m P *m H^T)).
Proof.
have dc : der (fun s => cos (w * s)) T (- (w * sin (w * T)))%R.
  by rewrite /der; auto_derive => //; toR; ring.
have ds : der (fun s => sin (w * s)) T (w * cos (w * T))%R.
  by rewrite /der; auto_derive => //; toR; ring.
have d1 := mxd_add (mxd_scale dc (mxd_const a T)) (mxd_scale ds (mxd_const b T)).
have d2 := mxd_mulr H^T (mxd_mulr P (mxd_mul d1 (expm_derl F T))).
apply: mxd_eq d2 _; rewrite !scaler0 !addr0.
rewrite !scalemxAl mulmxA -mulmxDl; congr (_ *m _ *m _ *m _).
rewrite -ea mulmxDl -!scalemxAl scalerDr.
have ebF : b *m F = w *: a by apply/eqP; rewrite -subr_eq0 eb.
rewrite ebF !scalerA [sin _ * w]mulrC [cos _ * w]mulrC scaleNr.
by zmod.
Qed.

Lemma entry T : evaluate m (CT R0) (CT T) = (H *m mA m (CT R0) (CT T) *m P *m H^T) 0 0 \/ Rlt T R0.
Proof.
case: (Rlt_dec T R0) => [h|h]; [by right|left]; rewrite /evaluate (hH (CT T) (CT R0)) /=.
case: RltbP => h0.
  have PT : P^T = P by exact: (lt_P hd).1.
  rewrite -[in LHS](t11 (_ *m _)) !trmx_mul !trmxK PT !mulmxA.
  by [].
have -> : T = R0 by apply: Rle_antisym; [apply: Rnot_lt_le h0|apply: Rnot_lt_le h].
by [].
Qed.
Lemma lag0 T : mA m (CT R0) (CT T) = expm (T *: F).
Proof. by rewrite (lt_A hd) /lag /= Rminus_0_r. Qed.

Lemma psd_pi : psd_at m w = Rdiv (Ropp (Gm R0 0 0)) PI.
Proof.
rewrite /psd_at (psd_of_row W_psd.1 hu ea eb).
have -> : (a *m W m *m a^T) 0 0 + (b *m W m *m b^T) 0 0 = - 2%:R * (a *m P *m H^T) 0 0.
  by have := congr1 (fun A : 'M_1 => A 0 0) quad; rewrite !mxE.
rewrite /Gm scale0r expm0 mulmx1 Rmult_0_r cos_0 sin_0 scale0r addr0 scale1r.
by toR; simpl INR; field; apply: PI_neq0.
Qed.

Lemma Gm_lim : is_lim (fun T => Gm T 0 0) p_infty R0.
Proof.
apply: (is_lim_ext (fun T => \sum_j \sum_i
  ((cos (w * T) *: a + sin (w * T) *: b) 0 i * (P *m H^T) j 0) * mA m (CT R0) (CT T) i j)).
  move=> T; rewrite lag0 /Gm -mulmxA [RHS]mxE; apply: eq_bigr => j _.
  by rewrite [(_ *m expm _) 0 j]mxE mulr_suml; apply: eq_bigr => i _; rewrite mulrAC.
apply: lim_sum => j; apply: lim_sum => i.
apply: (lim_bounded (C := Rmult (Rplus (Rabs (a 0 i)) (Rabs (b 0 i))) (Rabs ((P *m H^T) j 0)))) => // T.
rewrite -[(_ * _)%R]/(Rmult _ _) Rabs_mult; apply: Rmult_le_compat_r; first exact: Rabs_pos.
rewrite mxE; apply: Rle_trans (Rabs_triang _ _) _; apply: Rplus_le_compat.
  rewrite mxE -[(_ * _)%R]/(Rmult _ _) Rabs_mult -[X in Rle _ X]Rmult_1_l.
  apply: Rmult_le_compat_r; first exact: Rabs_pos.
  by apply/Rabs_le_between; have := COS_bound (Rmult w T); lra.
rewrite mxE -[(_ * _)%R]/(Rmult _ _) Rabs_mult -[X in Rle _ X]Rmult_1_l.
apply: Rmult_le_compat_r; first exact: Rabs_pos.
by apply/Rabs_le_between; have := SIN_bound (Rmult w T); lra.
Qed.

Lemma integral_G T : Rle R0 T ->
  RInt (fun r => Rmult (evaluate m (CT R0) (CT r)) (cos (Rmult w r))) R0 T = Rminus (Gm T 0 0) (Gm R0 0 0).
Proof.
move=> T0.
pose f r := cos (Rmult w r) *: (H *m expm (r *: F) *m P *m H^T).
have cf : mxc f.
  apply: (@mxd_mxc _ _ _ (fun x => (- (w * sin (w * x)))%R *: (H *m expm (x *: F) *m P *m H^T)
    + cos (w * x) *: (H *m (F *m expm (x *: F)) *m P *m H^T))) => x.
  have dc : der (fun s => cos (w * s)) x (- (w * sin (w * x)))%R.
    by rewrite /der; auto_derive => //; toR; ring.
  by apply: (mxd_scale dc); apply: mxd_mulr; apply: mxd_mulr; apply: mxd_mull; apply: expm_derl.
have e := mxintE R0 T Gm_der cf.
have := congr1 (fun A : 'M_1 => A 0 0) e; rewrite mxE [RHS]mxE [X in _ = _ + X]mxE => e'.
transitivity (Gm T 0 0 - Gm R0 0 0)%R; last by [].
rewrite -e'.
apply: RInt_ext => r; rewrite Rmin_left // Rmax_right // => -[r0 rT].
case: (entry r) => [->|h]; last by exfalso; lra.
by rewrite lag0 /f [RHS]mxE mulrC.
Qed.

Theorem fourier_of_row : spectral_density_of (fun r => evaluate m (CT R0) (CT r)) w (psd_at m w).
Proof.
rewrite /spectral_density_of.
apply: (is_lim_ext_loc (fun T => Rdiv (Rminus (Gm T 0 0) (Gm R0 0 0)) PI)).
  by exists R0 => T T0; rewrite integral_G //; apply: Rlt_le.
rewrite psd_pi.
have -> : Rdiv (Ropp (Gm R0 0 0)) PI = Rmult (Rminus R0 (Gm R0 0 0)) (Rinv PI) by rewrite /Rdiv; ring.
apply: (is_lim_scal_r (fun T => Rminus (Gm T 0 0) (Gm R0 0 0)) (Rinv PI) p_infty (Finite _)).
by apply: is_lim_minus'; [exact: Gm_lim|exact: is_lim_const].
Qed.
End Fourier.

Theorem psd_fourier m w : declared_lti m -> (forall X Y, mH m X = mH m Y) ->
  psd_matrix m w \in unitmx ->
  (forall i j, is_lim (fun T => mA m (CT R0) (CT T) i j) p_infty R0) ->
  spectral_density_of (fun r => evaluate m (CT R0) (CT r)) w (psd_at m w).
Proof.
move=> hd hH hu hA; have [a [b [ea eb _]]] := psd_row (W_psd hd).1 hu.
exact: (fourier_of_row hd hH hu hA ea eb).
Qed.
