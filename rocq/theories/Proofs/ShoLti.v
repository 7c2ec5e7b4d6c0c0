(** The SHO kernel: which SDE its matrices belong to, in each damping regime. *)
From Coq Require Import Reals Lra Psatz Nsatz.
From mathcomp Require Import all_ssreflect all_algebra.
From Coquelicot Require Import Coquelicot.
From Verif.Prelude Require Import Rstruct Psd Zmod MxCalc.
From Verif.Spec Require Import Expm Markov Lti.
From Verif.Model Require Import Array Helpers Ssm BaseKernels.
From Verif.Proofs Require Import Expm Lti Leaves LeafLti.
Set Implicit Arguments.
Unset Strict Implicit.
Unset Printing Implicit Defensive.
Import Order.TTheory GRing.Theory Num.Theory.
Local Open Scope R_scope.

(** Inside the jnp.allclose band around 1/2 the critically damped formulas are
    used: they belong to quality exactly 1/2. *)
Definition sho_quality (q : R) : R := if allclose q (1 / 2) then 1 / 2 else q.

Lemma sho_quality_pos q : 0 < q -> 0 < sho_quality q.
Proof. by rewrite /sho_quality; case: allclose => // _; lra. Qed.

Lemma allclose_half : allclose (1 / 2) (1 / 2).
Proof.
apply/RlebP; rewrite Rminus_diag_eq // Rabs_R0.
have h8 : 0 < / 10 ^ 8 by apply: Rinv_0_lt_compat; apply: pow_lt; lra.
have h5 : 0 < / 10 ^ 5 by apply: Rinv_0_lt_compat; apply: pow_lt; lra.
have ha := Rabs_pos (1 / 2).
have := Rmult_le_pos _ _ (Rlt_le _ _ h5) ha; lra.
Qed.

Lemma sho_quality_id q : ~~ allclose q (1 / 2) \/ q = 1 / 2 -> sho_quality q = q.
Proof. by rewrite /sho_quality => -[/negbTE ->|->] //; case: ifP. Qed.

Lemma eta_pos q : 0 < q -> q <> 1 / 2 -> 0 < sho_eta q.
Proof.
move=> q0 qh; apply: sqrt_lt_R0; apply: Rabs_pos_lt => e.
have h : 4 * q ^ 2 = 1.
  have k : 4 * q ^ 2 <> 0 by have := pow_lt q 2 q0; lra.
  have : (1 - 1 / (4 * q ^ 2)) * (4 * q ^ 2) = 4 * q ^ 2 - 1 by field; lra.
  by rewrite e; lra.
by apply: qh; nra.
Qed.

Lemma eta_under q : 1 / 2 < q -> sho_eta q ^ 2 = 1 - 1 / (4 * q ^ 2).
Proof.
move=> h; rewrite /sho_eta pow2_sqrt; last exact: Rabs_pos.
rewrite Rabs_pos_eq //.
have k : 1 < 4 * q ^ 2 by nra.
suff : 1 / (4 * q ^ 2) < 1 by lra.
apply: (Rmult_lt_reg_r (4 * q ^ 2)); first lra.
by rewrite /Rdiv Rmult_assoc Rinv_l; lra.
Qed.

Lemma eta_over q : 0 < q -> q < 1 / 2 -> sho_eta q ^ 2 = 1 / (4 * q ^ 2) - 1.
Proof.
move=> q0 h; rewrite /sho_eta pow2_sqrt; last exact: Rabs_pos.
have k : 0 < 4 * q ^ 2 < 1 by have := pow_lt q 2 q0; nra.
rewrite Rabs_left; first by ring.
suff : 1 < 1 / (4 * q ^ 2) by lra.
apply: (Rmult_lt_reg_r (4 * q ^ 2)); first lra.
by rewrite /Rdiv Rmult_assoc Rinv_l; lra.
Qed.

(** The three regimes. *)
Variant sho_case (q : R) : Prop :=
  | ShoCritical of allclose q (1 / 2)
  | ShoUnder of allclose q (1 / 2) = false & 1 / 2 < q & Rltb (1 / 2) q = true
  | ShoOver of allclose q (1 / 2) = false & 0 < q < 1 / 2 & Rltb (1 / 2) q = false.

Lemma sho_caseP q : 0 < q -> sho_case q.
Proof.
move=> q0; case E : (allclose q (1 / 2)); first exact: ShoCritical.
case e : (Rltb (1 / 2) q).
  by apply: ShoUnder => //; apply/RltbP.
apply: ShoOver => //; split=> //; move/RltbP: e => h.
have : q <> 1 / 2 by move=> z; move: E; rewrite z allclose_half.
by lra.
Qed.

Lemma not_close q : allclose q (1 / 2) = false -> q <> 1 / 2.
Proof. by move=> E z; move: E; rewrite z allclose_half. Qed.

Lemma crit_osc w : crit_F w = osc_F w (1 / 2).
Proof. by mxeq; field. Qed.

Lemma sho_A_expm w q dt : 0 < w -> 0 < q ->
  sho_A w q dt = expm (dt *: sho_F w (sho_quality q))%R.
Proof.
move=> w0 q0; rewrite /sho_A /sho_quality.
case: (sho_caseP q0) => [->|E h ->|E h ->]; rewrite ?E.
- by rewrite -[sho_F w _]/(osc_F w _) -crit_osc -crit_expm.
- have n0 := eta_pos q0 (not_close E).
  rewrite -[sho_F w _]/(osc_F w _); apply: (ode_expm (A := sho_A_underdamped w q)).
    by move=> t; apply: (under_ode t w0 q0 n0 (eta_under h)).
  by rewrite /sho_A_underdamped; mxeq; rewrite /Rdiv ?(Rmult_0_l, Rmult_0_r) ?exp_0 ?cos_0 ?sin_0; ring.
- have n0 := eta_pos q0 (not_close E).
  rewrite -[sho_F w _]/(osc_F w _); apply: (ode_expm (A := sho_A_overdamped w q)).
    by move=> t; apply: (over_ode t w0 q0 n0 (eta_over q0 (proj2 h))).
  by rewrite /sho_A_overdamped; mxeq; rewrite /Rdiv ?(Rmult_0_l, Rmult_0_r) ?exp_0 ?cosh_0 ?sinh_0; ring.
Qed.

Lemma sho_lti w q sigma : 0 < w -> 0 < q -> sigma <> 0 ->
  @lti (sho_model w q sigma) (sho_F w (sho_quality q))
     (sho_L *m sho_Qc w (sho_quality q) sigma *m sho_L^T)%R.
Proof.
move=> w0 q0 g0; have g := sq_pos g0; have k0 := sho_quality_pos q0.
constructor=> /=.
- by move=> X1 X2; rewrite sho_A_expm.
- by apply: pd_diag2 => //; apply: sq_pos; lra.
- by rewrite /sho_F /sho_Pinf; mxeq; rewrite /sq; field; lra.
- apply: psd_noise2.
  have h3 : 0 < w ^ 3 by apply: pow_lt.
  have := Rmult_lt_0_compat _ _ h3 g; rewrite /sq => h.
  by apply: Rdiv_le_0_compat => //; lra.
- by move=> X1 X2; rewrite lag0.
Qed.

Lemma sho_declared w q sigma : 0 < w -> 0 < q -> sigma <> 0 ->
  ~~ allclose q (1 / 2) \/ q = 1 / 2 -> declared_lti (sho_model w q sigma).
Proof. by move=> w0 q0 g0 /sho_quality_id e; have := sho_lti w0 q0 g0; rewrite e. Qed.

Lemma sho_noise_critical w sigma dt :
  (sho_Pinf w sigma - crit_A w dt *m sho_Pinf w sigma *m (crit_A w dt)^T)%R
  = sho_Q_critical w sigma dt.
Proof.
rewrite /sho_Pinf crit_noise /sho_Q_critical.
by mxeq; rewrite /sq /expm1; ring.
Qed.

Lemma sho_noise_under w q sigma dt : 0 < w -> 1 / 2 < q ->
  (sho_Pinf w sigma
   - sho_A_underdamped w q dt *m sho_Pinf w sigma *m (sho_A_underdamped w q dt)^T)%R
  = sho_Q_underdamped_raw w q sigma dt.
Proof.
move=> w0 h; have q0 : 0 < q by lra.
have n0 : 0 < sho_eta q by apply: eta_pos; lra.
have k : 4 * (q ^ 2 * sho_eta q ^ 2) = 4 * q ^ 2 - 1 by rewrite eta_under //; field; lra.
rewrite /sho_Pinf /sho_A_underdamped /sho_Q_underdamped_raw /expm1.
have -> : - (w * dt / q) = 2 * (- (1 / 2) * w * dt / q) by field; lra.
rewrite exp_double sin_2a.
have := sin2_cos2 (sho_eta q * w * dt); rewrite /Rsqr.
move: (sho_eta q) n0 k => n n0 k.
move: (exp _) (sin _) (cos _) => e s c sc.
have c2 : c ^ 2 = 1 - s ^ 2 by lra.
clear sc; mxeq; rewrite /sq; field_simplify_eq; try lra; rewrite ?c2; clear c2; nsatz.
Qed.

Lemma sinh_2 x : sinh (2 * x) = 2 * sinh x * cosh x.
Proof.
rewrite /sinh /cosh exp_double.
have -> : - (2 * x) = 2 * (- x) by ring.
by rewrite exp_double; field.
Qed.
Lemma cosh2_sinh2 x : cosh x * cosh x - sinh x * sinh x = 1.
Proof.
rewrite /sinh /cosh exp_Ropp; have := exp_pos x => h.
by field; lra.
Qed.

Lemma sho_noise_over w q sigma dt : 0 < w -> 0 < q < 1 / 2 ->
  (sho_Pinf w sigma
   - sho_A_overdamped w q dt *m sho_Pinf w sigma *m (sho_A_overdamped w q dt)^T)%R
  = sho_Q_overdamped w q sigma dt.
Proof.
move=> w0 [q0 h].
have n0 : 0 < sho_eta q by apply: eta_pos; lra.
have k : 4 * (q ^ 2 * sho_eta q ^ 2) = 1 - 4 * q ^ 2 by rewrite eta_over //; field; lra.
rewrite /sho_Pinf /sho_A_overdamped /sho_Q_overdamped /expm1.
have -> : - (w * dt / q) = 2 * (- (1 / 2) * w * dt / q) by field; lra.
rewrite exp_double sinh_2.
have := cosh2_sinh2 (sho_eta q * w * dt).
move: (sho_eta q) n0 k => n n0 k.
move: (exp _) (sinh _) (cosh _) => e s c sc.
have c2 : c ^ 2 = 1 + s ^ 2 by lra.
clear sc; mxeq; rewrite /sq; field_simplify_eq; try lra; rewrite ?c2; clear c2; nsatz.
Qed.

(** The values that jnp.where(jnp.abs(Q) < 1e-14, 0, Q) leaves alone. *)
Definition flush_safe (x : R) : Prop := x = 0 \/ / 10 ^ 14 <= Rabs x.

Lemma flush_id x : flush_safe x -> flush x = x.
Proof.
rewrite /flush => -[->|h]; first by case: ifP.
by case: RltbP => // k; lra.
Qed.

Lemma flush_fix x : flush x = x -> flush_safe x.
Proof.
rewrite /flush; case: RltbP => h; first by move=> <-; left.
by move=> _; right; lra.
Qed.

(** The process noise is exact unless the underdamped formulas are used and an
    entry of the exact noise is below the underflow threshold. *)
Lemma sho_noise w q sigma dt : 0 < w -> 0 < q ->
  (1 / 2 < q -> ~~ allclose q (1 / 2) ->
     forall i j, flush_safe (sho_Q_underdamped_raw w q sigma dt i j)) ->
  noise_exact_at (sho_model w q sigma) dt.
Proof.
move=> w0 q0 hf; rewrite /noise_exact_at /exact_noise /= lag0 /sho_Q /sho_A.
case: (sho_caseP q0) hf => [E|E h e|E h e] hf; rewrite E ?e /=.
- by rewrite -[sho_A_critical w dt]/(crit_A w dt) sho_noise_critical.
- rewrite sho_noise_under // /sho_Q_underdamped /flush_mx.
  by apply/matrixP=> i j; rewrite mxE flush_id //; apply: hf; rewrite ?E.
- by rewrite sho_noise_over.
Qed.
