(** Stationary SDEs: the ideal model is a valid state-space model; sums, products
    and rescalings of stationary SDEs. *)
From Coq Require Import Reals Lra.
From mathcomp Require Import all_ssreflect all_algebra.
From mathcomp.real_closed Require Import mxtens.
From Verif.Prelude Require Import Rstruct Psd Zmod MxCalc Tens.
From Verif.Spec Require Import Expm Markov Lti.
From Verif.Model Require Import Array Ssm BaseKernels.
From Verif.Proofs Require Import Expm.
Set Implicit Arguments.
Unset Strict Implicit.
Unset Printing Implicit Defensive.
Import Order.TTheory GRing.Theory Num.Theory.
Local Open Scope ring_scope.

(** The exact noise over a non-negative time difference is positive
    semidefinite. *)
Lemma lyap_psd n (G P B : 'M[R]_n) a : P^T = P ->
  G *m P + P *m G^T + B = 0 -> psdmx B -> 0 <= a ->
  psdmx (P - expm (a *: G) *m P *m (expm (a *: G))^T).
Proof.
move=> sP hl hB a0; split=> [|x].
  by rewrite linearB /= trmx_mul trmxK trmx_mul sP mulmxA.
pose f s := (x^T *m (P - expm (s *: G) *m P *m (expm (s *: G))^T) *m x) 0 0.
pose g s := (x^T *m (expm (s *: G) *m B *m (expm (s *: G))^T) *m x) 0 0.
have df s : der f s (g s).
  have h : mxd (fun s => x^T *m (P - expm (s *: G) *m P *m (expm (s *: G))^T) *m x) s
     (x^T *m (expm (s *: G) *m B *m (expm (s *: G))^T) *m x).
    apply: mxd_mulr; apply: mxd_mull.
    apply: mxd_eq.
      apply: mxd_sub; first exact: mxd_const.
      apply: mxd_mul; last by apply: mxd_tr; apply: expm_derr.
      by apply: mxd_mulr; apply: expm_derr.
    rewrite /= trmx_mul.
    move: (expm (s *: G)) => E.
    have -> : B = - (G *m P + P *m G^T).
      by apply/eqP; rewrite -addr_eq0 addrC hl.
    mxzmod.
  exact: (h 0 0).
have g0 s : Rle R0 s -> Rle R0 (g s).
  by move=> _; apply/RleP; apply: (proj2 (psd_conj (expm (s *: G)) hB)).
have := der_ge0_le df g0 (elimT (RleP _ _) a0).
rewrite {1}/f scale0r expm0 mul1mx trmx1 mulmx1 subrr mulmx0 mul0mx mxE => /RleP.
by [].
Qed.

Lemma lag0 t : lag (CT R0) (CT t) = t.
Proof. by rewrite /lag /= Rminus_0_r. Qed.
Lemma lagB s t : lag (CT s) (CT t) = t - s.
Proof. by []. Qed.

Section Valid.
Variables (m : model) (G B : 'M[R]_(md m)).
Hypothesis h : lti G B.

Lemma lti_A0 t : mA m (CT R0) (CT t) = expm (t *: G).
Proof. by rewrite (lt_A h) lag0. Qed.

Lemma lti_noise_psd X1 X2 : 0 <= lag X1 X2 -> psdmx (exact_noise m X1 X2).
Proof.
move=> h0; rewrite /exact_noise (lt_A h).
exact: (lyap_psd (proj1 (lt_P h)) (lt_lyap h) (lt_B h)).
Qed.

Lemma lti_noise_lag X1 X2 : exact_noise m X1 X2 = exact_noise m (CT R0) (CT (lag X1 X2)).
Proof. by rewrite /exact_noise !(lt_A h) lag0. Qed.

Lemma lti_ideal_valid : valid_ssm (to_ssm (ideal m)).
Proof.
constructor=> /=.
- by move=> a b; rewrite !(lt_A h) !lagB subr0.
- by move=> a b; rewrite lti_noise_lag.
- by rewrite lti_A0 scale0r expm0.
- by move=> a b _ _; rewrite !lti_A0 -expm_add addrC.
- by move=> a _; rewrite lti_A0; apply: expm_unit.
- exact: (lt_P h).
- by [].
- by move=> a a0; apply: lti_noise_psd; rewrite lag0.
Qed.

Lemma lti_valid : (forall dt, 0 <= dt -> noise_exact_at m dt) -> valid_ssm (to_ssm m).
Proof.
move=> hq; have v := lti_ideal_valid; constructor.
- exact: (vs_tshift v).
- by move=> a b /=; rewrite (lt_Qlag h).
- exact: (vs_id v).
- exact: (vs_semi v).
- exact: (vs_unit v).
- exact: (vs_pinf v).
- by move=> a a0 /=; rewrite hq.
- by move=> a a0 /=; rewrite hq //; apply: (vs_qpsd v).
Qed.

End Valid.

(** Block-diagonal exponentials. *)
Lemma expm_block n1 n2 (G1 : 'M[R]_n1) (G2 : 'M[R]_n2) (t : R) :
  block_mx (expm (t *: G1)) 0 0 (expm (t *: G2)) = expm (t *: block_mx G1 0 0 G2).
Proof.
have := @expm_unique _ _ (block_mx G1 0 0 G2)
   (fun s => block_mx (expm (s *: G1)) 0 0 (expm (s *: G2))) _ t.
rewrite !scale0r !expm0 -scalar_mx_block mulmx1; apply=> s.
apply: mxd_eq.
  apply: mxd_block; [exact: expm_derl | exact: mxd_const | exact: mxd_const | exact: expm_derl].
by rewrite mulmx_block !mul0mx !mulmx0 !addr0 !add0r.
Qed.

Lemma mxd_tens m n p q (A : R -> 'M[R]_(m, n)) (B : R -> 'M[R]_(p, q)) x D E :
  mxd A x D -> mxd B x E -> mxd (fun s => A s *t B s) x (D *t B x + A x *t E).
Proof.
move=> hA hB i j; case: (mxtens_indexP i) => i1 i2; case: (mxtens_indexP j) => j1 j2.
rewrite mxE !tensmxE; apply: der_ext (der_mul (hA i1 j1) (hB i2 j2)) => s.
by rewrite tensmxE.
Qed.

(** expm(t G1) (x) expm(t G2) = expm(t (G1 (x) I + I (x) G2)). *)
Lemma expm_tens n1 n2 (G1 : 'M[R]_n1) (G2 : 'M[R]_n2) (t : R) :
  expm (t *: G1) *t expm (t *: G2) = expm (t *: (G1 *t 1%:M + 1%:M *t G2)).
Proof.
have := @expm_unique _ _ (G1 *t 1%:M + 1%:M *t G2)
   (fun s => expm (s *: G1) *t expm (s *: G2)) _ t.
rewrite !scale0r !expm0 tens1 mulmx1; apply=> s.
apply: mxd_eq.
  by apply: mxd_tens; apply: expm_derl.
by rewrite mulmxDl !tensmx_mul !mul1mx.
Qed.

Section Combine.
Variables (m1 m2 : model).
Variables (G1 B1 : 'M[R]_(md m1)) (G2 B2 : 'M[R]_(md m2)).
Hypotheses (h1 : lti G1 B1) (h2 : lti G2 B2).

Lemma lti_sum : @lti (sum_model m1 m2) (block_mx G1 0 0 G2) (block_mx B1 0 0 B2).
Proof.
constructor=> /=.
- by move=> X1 X2; rewrite (lt_A h1) (lt_A h2) expm_block.
- by apply: pd_block; [apply: (lt_P h1) | apply: (lt_P h2)].
- rewrite tr_block_mx !trmx0 !mulmx_block !mul0mx !mulmx0 !addr0 !add0r.
  by rewrite !add_block_mx !addr0 (lt_lyap h1) (lt_lyap h2) block_mx_const.
- by apply: psd_block; [apply: (lt_B h1) | apply: (lt_B h2)].
- by move=> X1 X2; rewrite (lt_Qlag h1) (lt_Qlag h2).
Qed.

Lemma lti_product : @lti (product_model m1 m2) (G1 *t 1%:M + 1%:M *t G2)
  (B1 *t mPinf m2 + mPinf m1 *t B2).
Proof.
constructor=> /=.
- by move=> X1 X2; rewrite (lt_A h1) (lt_A h2) expm_tens.
- by apply: pd_tens; [apply: (lt_P h1) | apply: (lt_P h2)].
- rewrite linearD /= !trmx_tens !trmx1 mulmxDl mulmxDr !tensmx_mul !mul1mx !mulmx1.
  have -> : B1 = - (G1 *m mPinf m1 + mPinf m1 *m G1^T).
    by apply/eqP; rewrite -addr_eq0 addrC (lt_lyap h1).
  have -> : B2 = - (G2 *m mPinf m2 + mPinf m2 *m G2^T).
    by apply/eqP; rewrite -addr_eq0 addrC (lt_lyap h2).
  rewrite tensNl tensNr tensDl tensDr.
  zmod.
- apply: psdD; apply: psd_tens; try exact: pd_psd (lt_P _).
  + exact: (lt_B h1).
  + exact: (pd_psd (lt_P h2)).
  + exact: (pd_psd (lt_P h1)).
  + exact: (lt_B h2).
- by move=> X1 X2; rewrite (lt_Qlag h1) (lt_Qlag h2).
Qed.

Lemma noise_sum dt : noise_exact_at m1 dt -> noise_exact_at m2 dt ->
  noise_exact_at (sum_model m1 m2) dt.
Proof.
rewrite /noise_exact_at /exact_noise /= => -> ->.
rewrite tr_block_mx !trmx0 !mulmx_block !mul0mx !mulmx0 !addr0 !add0r.
by rewrite !mul0mx opp_block_mx add_block_mx !oppr0 !addr0.
Qed.

Lemma noise_product dt : noise_exact_at m1 dt -> noise_exact_at m2 dt ->
  noise_exact_at (product_model m1 m2) dt.
Proof.
rewrite /noise_exact_at /exact_noise /= => -> ->.
rewrite trmx_tens !tensmx_mul !(tensBl, tensBr).
zmod.
Qed.

End Combine.

(** Scale, on its stationary covariance: a P with a B. *)
Lemma lti_scaled m (G B : 'M[R]_(md m)) (a : R) : lti G B ->
  0 < a -> G *m (a *: mPinf m) + (a *: mPinf m) *m G^T + a *: B = 0.
Proof.
by move=> h _; rewrite -scalemxAr -scalemxAl -!scalerDr (lt_lyap h) scaler0.
Qed.

Lemma lti_scale m (G B : 'M[R]_(md m)) (a : R) : lti G B -> 0 < a ->
  @lti (scale_model a m) G (a *: B).
Proof.
move=> h a0; constructor=> /=.
- exact: (lt_A h).
- by apply: pdZ => //; apply: (lt_P h).
- exact: lti_scaled h a0.
- by apply: psdZ; [apply: ltW | apply: (lt_B h)].
- exact: (lt_Qlag h).
Qed.

Lemma lti_ess_wrap m (G B : 'M[R]_(md m)) (sigma : R) : lti G B -> sigma <> R0 ->
  @lti (ess_wrap sigma m) G (sq sigma *: B).
Proof.
move=> h s0; have a0 : 0 < sq sigma.
  by apply/RltP; rewrite /sq; have := Rsqr_pos_lt _ s0.
constructor=> /=.
- exact: (lt_A h).
- by apply: pdZ => //; apply: (lt_P h).
- exact: lti_scaled h a0.
- by apply: psdZ; [apply: ltW | apply: (lt_B h)].
- exact: (lt_Qlag h).
Qed.
