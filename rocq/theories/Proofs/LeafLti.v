(** Each base kernel is a stationary SDE, and its closed-form process noise is
    the exact one. *)
From Coq Require Import Reals Lra Psatz Nsatz.
From mathcomp Require Import all_ssreflect all_algebra.
From Coquelicot Require Import Coquelicot.
From Verif.Prelude Require Import Rstruct Psd Zmod MxCalc.
From Verif.Spec Require Import Expm Markov Lti.
From Verif.Model Require Import Array Helpers Ssm BaseKernels.
From Verif.Proofs Require Import Expm Lti Leaves.
Set Implicit Arguments.
Unset Strict Implicit.
Unset Printing Implicit Defensive.
Import Order.TTheory GRing.Theory Num.Theory.
Local Open Scope R_scope.

Lemma exp_double x : exp (2 * x) = exp x * exp x.
Proof. by rewrite -exp_plus; congr exp; ring. Qed.

(** Exp *)
Lemma exp_lti scale sigma : 0 < scale -> sigma <> 0 -> declared_lti (exp_model scale sigma).
Proof.
move=> s0 g0; have g := sq_pos g0; constructor=> /=.
- move=> X1 X2; rewrite -[lag X1 X2]/(lag X1 X2); move: (lag X1 X2) => t.
  apply: (@ode_expm 1 _ (fun t => mat 1 1 [:: [:: exp (- t / scale)]])).
    move=> {}t; apply: mxd_mat => i j; ordcase i; ordcase j; rewrite /=; auto_derive => //; mxsimp.
    by rewrite /Rdiv; field; lra.
  by mxeq; rewrite /Rdiv Ropp_0 Rmult_0_l exp_0.
- by apply: pd11; mxsimp; apply/RltP; toR; lra.
- by mxeq; field; lra.
- apply: psd_conj; apply: psd11; mxsimp; apply/RleP.
  have : 0 < / scale by apply: Rinv_0_lt_compat.
  rewrite /sq in g |- *; toR => h; rewrite /Rdiv Rmult_1_l.
  by have := Rmult_lt_0_compat _ _ h g; lra.
- by move=> X1 X2; rewrite lag0.
Qed.

Lemma exp_noise scale sigma dt : scale <> 0 -> noise_exact_at (exp_model scale sigma) dt.
Proof.
move=> s0; rewrite /noise_exact_at /exact_noise /= lag0; mxeq.
have -> : -2 * dt * (1 / scale) = 2 * (- dt / scale) by field.
by rewrite exp_double; ring.
Qed.

(** Matern-3/2 *)
Lemma m32_lti scale sigma : 0 < scale -> sigma <> 0 -> declared_lti (matern32_model scale sigma).
Proof.
move=> s0 g0; have g := sq_pos g0; rewrite /declared_lti /matern32_model /m32_A /m32_Q.
have : 0 < sqrt 3 / scale by apply: Rdiv_lt_0_compat => //; apply: sqrt_lt_R0; lra.
move: (sqrt 3 / scale) => l l0.
constructor=> /=.
- by move=> X1 X2; rewrite -(crit_expm l).
- by apply: pd_diag2 => //; apply: sq_pos; lra.
- by mxeq; rewrite /sq; ring.
- apply: psd_noise2; rewrite /sq in g *.
  have : 0 < l ^ 3 by apply: pow_lt.
  by move=> h; have := Rmult_lt_0_compat _ _ h g; nra.
- by move=> X1 X2; rewrite lag0.
Qed.

Lemma crit_noise l sigma dt :
  (smul (sq sigma) (mat 2 2 [:: [:: 1; 0]; [:: 0; sq l]])
    - crit_A l dt *m smul (sq sigma) (mat 2 2 [:: [:: 1; 0]; [:: 0; sq l]]) *m (crit_A l dt)^T)%R
  = smul (sq sigma) (mat 2 2
    [:: [:: 1 - exp (- (2 * l * dt)) * (1 + 2 * l * dt + 2 * (l * dt) ^ 2);
            2 * l ^ 3 * dt ^ 2 * exp (- (2 * l * dt))];
        [:: 2 * l ^ 3 * dt ^ 2 * exp (- (2 * l * dt));
            l ^ 2 * (1 - exp (- (2 * l * dt)) * (1 - 2 * l * dt + 2 * (l * dt) ^ 2))]]).
Proof.
have -> : - (2 * l * dt) = 2 * (- l * dt) by ring.
by rewrite exp_double /crit_A; mxeq; rewrite /sq; ring.
Qed.

Lemma m32_noise scale sigma dt : noise_exact_at (matern32_model scale sigma) dt.
Proof.
rewrite /noise_exact_at /exact_noise /= lag0 /m32_Q /m32_A -/(crit_A _ dt) crit_noise.
by mxeq; rewrite /sq /expm1; ring.
Qed.

(** Matern-5/2 *)
Lemma m52_lti scale sigma : 0 < scale -> sigma <> 0 -> declared_lti (matern52_model scale sigma).
Proof.
move=> s0 g0; have g := sq_pos g0; rewrite /declared_lti.
constructor; rewrite /=.
- by move=> X1 X2; rewrite m52_expm.
- rewrite /m52_Pinf.
  have : 0 < sqrt 5 / scale by apply: Rdiv_lt_0_compat => //; apply: sqrt_lt_R0; lra.
  move: (sqrt 5 / scale) => l l0.
  apply: pd3; first by mxeq; ring.
  move=> a b c h; rewrite !mxE inordK //=; toR.
  have l2 : 0 < sq l by apply: sq_pos; lra.
  have -> : sq sigma * 1 * a * a + sq sigma * (sq l / 3) * b * b
     + sq sigma * sq (sq l) * c * c + 2 * (sq sigma * 0) * a * b
     + 2 * (sq sigma * - (sq l / 3)) * a * c + 2 * (sq sigma * 0) * b * c
     = sq sigma * (sq (a - sq l / 3 * c) + sq l / 3 * sq b + 8 / 9 * sq (sq l) * sq c).
    by rewrite /sq; field.
  apply: Rmult_lt_0_compat => //.
  have l4 : 0 < sq (sq l) by apply: sq_pos; lra.
  have hb : 0 <= sq l / 3 * sq b by apply: Rmult_le_pos; [lra | apply: sq_ge0].
  have hc : 0 <= 8 / 9 * sq (sq l) * sq c by apply: Rmult_le_pos; [lra | apply: sq_ge0].
  have ha := sq_ge0 (a - sq l / 3 * c).
  case: (Req_dec c 0) => [c0|/sq_pos c0]; last first.
    by have := Rmult_lt_0_compat (8 / 9 * sq (sq l)) _ ltac:(lra) c0; lra.
  case: (Req_dec b 0) => [b0|/sq_pos b0]; last first.
    by have := Rmult_lt_0_compat (sq l / 3) _ ltac:(lra) b0; lra.
  case: h => [/sq_pos h|[//|//]].
  by rewrite c0 Rmult_0_r Rminus_0_r in ha hc *; lra.
- rewrite /m52_F /m52_Pinf; move: (sqrt 5 / scale) => l.
  by mxeq; rewrite /sq; field.
- apply: psd_conj; apply: psd11; mxsimp; apply/RleP.
  have : 0 < sqrt 5 / scale by apply: Rdiv_lt_0_compat => //; apply: sqrt_lt_R0; lra.
  move: (sqrt 5 / scale) => l l0; rewrite /sq in g *.
  have h : 0 < l ^ 5 by apply: pow_lt.
  have := Rmult_lt_0_compat _ _ h g.
  by rewrite /=; toR; lra.
- by move=> X1 X2; rewrite lag0.
Qed.

Lemma m52_noise scale sigma dt : noise_exact_at (matern52_model scale sigma) dt.
Proof.
rewrite /noise_exact_at /exact_noise /= lag0 /m52_Q /m52_A /m52_Pinf.
move: (sqrt 5 / scale) => l.
have -> : -2 * (dt * l) = 2 * (- l * dt) by ring.
by mxeq; rewrite /expm1 exp_double /sq; field.
Qed.

(** Rotations *)
Lemma rot_lti_P (o c : R) :
  (rot_F o *m smul c (mat 2 2 [:: [:: 1; 0]; [:: 0; 1]])
   + smul c (mat 2 2 [:: [:: 1; 0]; [:: 0; 1]]) *m (rot_F o)^T)%R = 0%R.
Proof. by mxeq; ring. Qed.

Lemma rot_noise (o c dt : R) :
  (smul c (mat 2 2 [:: [:: 1; 0]; [:: 0; 1]])
   - rot_A o dt *m smul c (mat 2 2 [:: [:: 1; 0]; [:: 0; 1]]) *m (rot_A o dt)^T)%R = 0%R.
Proof.
have := sin2_cos2 (o * dt); rewrite /Rsqr.
rewrite /rot_A; move: (sin _) (cos _) => s k h.
mxeq; rewrite -?h; first [ring | nsatz].
Qed.

Lemma cosine_lti scale sigma : sigma <> 0 -> declared_lti (cosine_model scale sigma).
Proof.
move=> g0; have g := sq_pos g0; constructor=> /=.
- by move=> X1 X2; rewrite -(rot_expm (2 * PI / scale)).
- by apply: pd_diag2 => //; lra.
- rewrite -[mat 2 2 [:: [:: 0; _]; _]]/(rot_F _) rot_lti_P add0r.
  by mxeq; ring.
- by apply: psd_noise2; lra.
- by [].
Qed.

Lemma cosine_noise scale sigma dt : noise_exact_at (cosine_model scale sigma) dt.
Proof.
by rewrite /noise_exact_at /exact_noise /= lag0 -[mat 2 2 [:: [:: cos _; _]; _]]/(rot_A _ _) rot_noise.
Qed.
