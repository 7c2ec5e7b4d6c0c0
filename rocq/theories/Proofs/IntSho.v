(** IntegratedSHO: the analytic integrated matrices of the underdamped oscillator. *)
From Coq Require Import Reals Lra Psatz Nsatz.
From mathcomp Require Import all_ssreflect all_algebra.
From Coquelicot Require Import Coquelicot.
From Verif.Prelude Require Import Rstruct Psd Zmod MxCalc.
From Verif.Spec Require Import Expm Integral Lti.
From Verif.Model Require Import Array Helpers Ssm BaseKernels IntegratedKernels.
From Verif.Proofs Require Import Expm Lti Leaves LeafLti ShoLti MxInt VanLoan Joint.
Set Implicit Arguments.
Unset Strict Implicit.
Unset Printing Implicit Defensive.
Import Order.TTheory GRing.Theory Num.Theory.
Local Open Scope R_scope.

Lemma pw2 (a : R) : a ^ 2 = a * a. Proof. ring. Qed.
Lemma pw3 (a : R) : a ^ 3 = a * a * a. Proof. ring. Qed.
Lemma pw4 (a : R) : a ^ 4 = a * a * (a * a). Proof. ring. Qed.
Lemma pw5 (a : R) : a ^ 5 = a * a * (a * a) * a. Proof. ring. Qed.
Lemma pw6 (a : R) : a ^ 6 = a * a * (a * a) * (a * a). Proof. ring. Qed.
Lemma pw7 (a : R) : a ^ 7 = a * a * (a * a) * (a * a) * a. Proof. ring. Qed.
Lemma pw8 (a : R) : a ^ 8 = a * a * (a * a) * (a * a) * (a * a). Proof. ring. Qed.
Ltac pws := rewrite ?(pw2, pw3, pw4, pw5, pw6, pw7, pw8).

Section Under.
Variables (w q sigma : R).
Hypothesis w0 : 0 < w.
Hypothesis qh : 1 / 2 < q.
Let n := sho_eta q.
Let q0 : 0 < q. Proof. lra. Qed.
Let n0 : 0 < n. Proof. by apply: eta_pos => //; lra. Qed.
Let k : 4 * (q ^ 2 * n ^ 2) = 4 * q ^ 2 - 1.
Proof. by rewrite /n eta_under //; field; lra. Qed.
Let k2 : 4 * (q * q * (n * n)) = 4 * (q * q) - 1.
Proof. by rewrite -!pw2 k. Qed.

Lemma isho_ab : sq (- (1 / 2) * w / q) + sq (n * w) = w ^ 2.
Proof.
rewrite /sq; apply: (Rmult_eq_reg_l (4 * q ^ 2)); last by have := pow_lt q 2 q0; lra.
by field_simplify_eq; [nsatz | lra].
Qed.

Let x t := - (1 / 2) * w / q * t.
Let xE t : - (1 / 2) * w * t / q = x t. Proof. by rewrite /x; field; lra. Qed.

Lemma isho_pb_der t : mxd (isho_Phibar_underdamped w q) t (sho_A_underdamped w q t).
Proof.
rewrite /isho_Phibar_underdamped -/n isho_ab /sho_A_underdamped -/n xE.
apply: mxd_smat => i j; ordcase i; ordcase j; rewrite /=; auto_derive => //; mxsimp;
  rewrite /x; move: (exp _) (sin _) (cos _) => e s c; field_simplify_eq; try lra.
all: pws; clear k; nsatz.
Qed.

Lemma isho_pb_0 : isho_Phibar_underdamped w q 0 = 0%R.
Proof.
rewrite /isho_Phibar_underdamped -/n isho_ab; mxeq; rewrite ?Rmult_0_r ?exp_0 ?sin_0 ?cos_0; field; lra.
Qed.

Lemma sho_under_expm t : sho_A_underdamped w q t = expm (t *: sho_F w q)%R.
Proof.
rewrite -[sho_F w _]/(osc_F w _); apply: (ode_expm (A := sho_A_underdamped w q)).
  by move=> s; apply: (under_ode s w0 q0 n0 (eta_under qh)).
by rewrite /sho_A_underdamped; mxeq; rewrite /Rdiv ?(Rmult_0_l, Rmult_0_r) ?exp_0 ?cos_0 ?sin_0; ring.
Qed.

Lemma isho_pbE t : isho_Phibar_underdamped w q t = Phibar_from_VanLoan (sho_F w q) t.
Proof.
apply: (mxd_same (h := sho_A_underdamped w q)); first exact: isho_pb_der.
  by move=> s; apply: (mxd_eq (pb_der _ s)); rewrite sho_under_expm.
by rewrite isho_pb_0 pb_0.
Qed.

Let W := (sho_L *m sho_Qc w q sigma *m sho_L^T)%R.

Lemma isho_Q12_der t : mxd (isho_Q12_raw w q sigma) t
  (sho_A_underdamped w q t *m W *m (isho_Phibar_underdamped w q t)^T *m (unit_rows 2 1)^T)%R.
Proof.
rewrite /isho_Q12_raw -/n /isho_Phibar_underdamped -/n isho_ab /sho_A_underdamped -/n xE.
apply: mxd_smat => i j; ordcase i; ordcase j; rewrite /=; rewrite /sq /expm1; auto_derive => //; mxsimp;
  rewrite /x /sq ?exp_double ?sin_2a ?cos_2a; have := sin2_cos2 (n * w * t); rewrite /Rsqr;
  move: (exp _) (sin _) (cos _) => e s c sc.
all: field_simplify_eq; try lra.
all: apply: Rminus_diag_uniq.
- transitivity (sigma ^ 2 * w ^ 3 * (- 4 * q * n * e ^ 2 * c * s + 4 * q * n * e * s
      - 2 * e ^ 2 * s ^ 2) * (4 * (q * q * (n * n)) - (4 * (q * q) - 1))).
    by ring.
  by rewrite k2; ring.
- transitivity (8 * sigma ^ 2 * n ^ 2 * q ^ 3 * w ^ 3 * e ^ 2 * (s * s + c * c - 1)).
    by ring.
  by rewrite sc; ring.
Qed.

Lemma isho_Q12_0 : isho_Q12_raw w q sigma 0 = 0%R.
Proof.
rewrite /isho_Q12_raw -/n /expm1; mxeq; rewrite ?Rmult_0_r ?exp_0 ?sin_0 ?cos_0 /sq; field; lra.
Qed.

Lemma isho_Q12E t : isho_Q12_raw w q sigma t = default_Qaug12 (sho_model w q sigma) R0 t.
Proof.
have -> : default_Qaug12 (sho_model w q sigma) R0 t =
  ((vl_F3 (sho_F w q) sho_L (sho_Qc w q sigma) t)^T
    *m vl_H2 (sho_F w q) sho_L (sho_Qc w q sigma) t *m (unit_rows 2 1)^T)%R.
  rewrite /default_Qaug12 -cols_first; apply/matrixP=> i j; rewrite [RHS]mxE !ord1.
  by have -> : GRing.add t (GRing.opp R0) = t by toR; lra.
apply: (mxd_same (h := fun t => (sho_A_underdamped w q t *m W *m (isho_Phibar_underdamped w q t)^T *m (unit_rows 2 1)^T)%R)
  (f := isho_Q12_raw w q sigma)
  (g := fun t => ((vl_F3 (sho_F w q) sho_L (sho_Qc w q sigma) t)^T
    *m vl_H2 (sho_F w q) sho_L (sho_Qc w q sigma) t *m (unit_rows 2 1)^T)%R)).
- exact: isho_Q12_der.
- move=> s; apply: (mxd_eq (mxd_mulr _ (M_der _ _ _ s))).
  by rewrite sho_under_expm isho_pbE.
- by rewrite isho_Q12_0 H2_0 mulmx0 mul0mx.
Qed.

Lemma isho_Q22_der t : der (fun t => sigma ^ 2 * isho_iQ22 w q t) t
  ((unit_rows 2 1 *m (isho_Phibar_underdamped w q t *m W *m (isho_Phibar_underdamped w q t)^T) *m (unit_rows 2 1)^T)%R 0%R 0%R).
Proof.
rewrite /isho_iQ22 -/n /isho_Phibar_underdamped -/n isho_ab.
rewrite /der /sq; auto_derive => //; mxsimp; rewrite /sq.
rewrite ?exp_double ?sin_2a ?cos_2a; have := sin2_cos2 (n * w * t); rewrite /Rsqr;
  move: (exp _) (sin _) (cos _) => e s c sc.
field_simplify_eq; try lra.
pose P := 4 * (q * q * (n * n)); pose U := 4 * (q * q) - 1.
apply: Rminus_diag_uniq.
transitivity (sigma ^ 2 * w ^ 4 * ((P - U) * (- 64 * q * n * e * s + 32 * q * n * e ^ 2 * c * s
   + e ^ 2 * (4 * (P + U) * (2 * c ^ 2 - 1) - 8 * (U + 1) * c ^ 2))
   + e ^ 2 * (s * s + c * c - 1) * (- 64 * q ^ 4 * n ^ 4 + 4 - 32 * q ^ 2))).
  by rewrite /P /U; ring.
by rewrite sc /P k2 /U; ring.
Qed.

Lemma isho_iQ22_0 : isho_iQ22 w q 0 = 0.
Proof.
rewrite /isho_iQ22 -/n ?Rmult_0_r ?exp_0 ?sin_0 ?cos_0 /sq; field_simplify_eq; try lra.
apply: Rminus_diag_uniq.
transitivity ((4 * (q * q * (n * n)) - (4 * (q * q) - 1)) * (4 * q ^ 2 + 1)); first by ring.
by rewrite k2; ring.
Qed.

Lemma isho_W_sym : (W^T = W)%R.
Proof. by rewrite /W; mxeq; ring. Qed.
Lemma isho_W_psd : psdmx W.
Proof.
apply: psd_noise2; have h3 : 0 < w ^ 3 by apply: pow_lt.
have h2 : 0 <= sq sigma by rewrite /sq; apply: Rle_0_sqr.
have := Rmult_le_pos _ _ (Rlt_le _ _ h3) h2 => h.
by apply: Rdiv_le_0_compat => //; lra.
Qed.

Lemma isho_Q22E t : sigma ^ 2 * isho_iQ22 w q t = default_Qaug22 (sho_model w q sigma) R0 t.
Proof.
pose V t := ((vl_F3 (sho_F w q) sho_L (sho_Qc w q sigma) t)^T
    *m vl_K1 (sho_F w q) sho_L (sho_Qc w q sigma) t +
    ((vl_F3 (sho_F w q) sho_L (sho_Qc w q sigma) t)^T
    *m vl_K1 (sho_F w q) sho_L (sho_Qc w q sigma) t)^T)%R.
have -> : default_Qaug22 (sho_model w q sigma) R0 t =
  ((unit_rows 2 1 *m V t *m (unit_rows 2 1)^T)%R 0%R 0%R).
  rewrite /default_Qaug22 -const_first mxE.
  by have -> : GRing.add t (GRing.opp R0) = t by toR; lra.
have h s : mxd (fun t => (unit_rows 2 1 *m V t *m (unit_rows 2 1)^T)%R) s
   (unit_rows 2 1 *m (isho_Phibar_underdamped w q s *m W *m (isho_Phibar_underdamped w q s)^T) *m (unit_rows 2 1)^T)%R.
  apply: (mxd_eq (mxd_mulr _ (mxd_mull _ (V_der (sho_F w q) isho_W_sym s)))).
  by rewrite isho_pbE.
have hd s : der (fun t => sigma ^ 2 * isho_iQ22 w q t - (unit_rows 2 1 *m V t *m (unit_rows 2 1)^T)%R 0%R 0%R) s 0.
  apply: (der_eq (der_add (isho_Q22_der s) (der_opp (h s 0%R 0%R)))).
  by exact: Rplus_opp_r.
have := der0_const hd t 0.
have -> : (unit_rows 2 1 *m V 0 *m (unit_rows 2 1)^T)%R 0%R 0%R = 0.
  by rewrite /V V_0 mulmx0 mul0mx mxE.
rewrite isho_iQ22_0 Rmult_0_r.
by move: ((_ *m _)%R 0%R 0%R) => a; lra.
Qed.

Lemma isho_iQ22_ge0 t : 0 <= t -> 0 <= sigma ^ 2 * isho_iQ22 w q t.
Proof.
move=> t0; have := der_ge0_le isho_Q22_der _ t0.
rewrite isho_iQ22_0 Rmult_0_r => h; apply: h => y _.
by apply/RleP/psd11_ge0/psd_conj/psd_conj/isho_W_psd.
Qed.

Lemma isho_Q22_rawE t : 0 <= t ->
  isho_Q22_raw w q sigma t = default_Qaug22 (sho_model w q sigma) R0 t.
Proof.
move=> t0; rewrite -isho_Q22E /isho_Q22_raw /sq; have := isho_iQ22_ge0 t0.
move: (isho_iQ22 _ _ _) => z h.
case: (Rle_dec 0 z) => hx; first by rewrite Rmax_left //; ring.
rewrite Rmax_right; last lra.
have h2 : 0 <= sigma ^ 2 by apply: pow2_ge_0.
have : sigma ^ 2 * z <= 0.
  by have := Rmult_le_pos _ _ h2 (_ : 0 <= - z) => /(_ ltac:(lra)); lra.
by rewrite Rmult_0_r; lra.
Qed.
End Under.
