(** The base kernels satisfy the stationary SDEs they declare. *)
From Coq Require Import Reals Lra Psatz Nsatz.
From mathcomp Require Import all_ssreflect all_algebra.
From Coquelicot Require Import Coquelicot.
From Verif.Prelude Require Import Rstruct Psd Zmod MxCalc.
From Verif.Spec Require Import Expm Markov Lti.
From Verif.Model Require Import Array Helpers Ssm BaseKernels.
From Verif.Proofs Require Import Expm Lti.
Set Implicit Arguments.
Unset Strict Implicit.
Unset Printing Implicit Defensive.
Import Order.TTheory GRing.Theory Num.Theory.

Lemma mxd_mat m n (rows : R -> seq (seq R)) x (D : 'M[R]_(m, n)) :
  (forall (i : 'I_m) (j : 'I_n),
     is_derive (fun s => nth R0 (nth [::] (rows s) i) j) x (D i j)) ->
  mxd (fun s => mat m n (rows s)) x D.
Proof. by move=> h i j; apply: der_ext (h i j) => s; rewrite mxE. Qed.

Lemma mxd_smat m n (f : R -> R) (rows : R -> seq (seq R)) x (D : 'M[R]_(m, n)) :
  (forall (i : 'I_m) (j : 'I_n),
     is_derive (fun s => Rmult (f s) (nth R0 (nth [::] (rows s) i) j)) x (D i j)) ->
  mxd (fun s => smul (f s) (mat m n (rows s))) x D.
Proof. by move=> h i j; apply: der_ext (h i j) => s; rewrite !mxE. Qed.

(** Case analysis on the (at most three) indices of a small matrix. *)
Ltac ordcase i := let h := fresh in case: i => [] [|[|[|?]]] h; try (exfalso; by []).
Ltac mxsimp := rewrite ?(mxE, big_ord_recl, big_ord0) /=
   ?(mxE, big_ord_recl, big_ord0) /= ?(mxE, big_ord_recl, big_ord0) /=; toR.
Ltac mxeq := let i := fresh "i" in let j := fresh "j" in
  apply/matrixP=> i j; ordcase i; ordcase j; mxsimp.

Local Open Scope R_scope.

(** Critically damped oscillator (SHO with quality 1/2, Matern-3/2). *)
Definition crit_A (l dt : R) : 'M[R]_2 :=
  smul (exp (- l * dt)) (mat 2 2 [:: [:: 1 + l * dt; dt]; [:: - sq l * dt; 1 - l * dt]]).
Definition crit_F (l : R) : 'M[R]_2 := mat 2 2 [:: [:: 0; 1]; [:: - sq l; -2 * l]].

Lemma crit_ode (l t : R) : mxd (crit_A l) t (crit_F l *m crit_A l t)%R.
Proof.
apply: mxd_smat => i j; ordcase i; ordcase j;
  rewrite /=; auto_derive => //; mxsimp; rewrite /sq; ring.
Qed.

Lemma ode_expm n (F : 'M[R]_n) (A : R -> 'M[R]_n) :
  (forall t, mxd A t (F *m A t)%R) -> A 0 = 1%:M%R -> forall t, A t = expm (t *: F)%R.
Proof. by move=> h h0 t; rewrite (expm_unique h) h0 mulmx1. Qed.

Lemma crit_expm l t : crit_A l t = expm (t *: crit_F l)%R.
Proof.
apply: ode_expm; first exact: crit_ode.
by mxeq; rewrite ?Rmult_0_r ?exp_0 /sq; ring.
Qed.

(** Oscillators: one lemma for cos/sin and one for cosh/sinh. *)
Definition osc_F (w q : R) : 'M[R]_2 := mat 2 2 [:: [:: 0; 1]; [:: - sq w; - w / q]].

Lemma under_ode (w q n t : R) : 0 < w -> 0 < q -> 0 < n -> n ^ 2 = 1 - 1 / (4 * q ^ 2) ->
  let A dt := smul (exp (- (1 / 2) * w * dt / q))
    (mat 2 2 [:: [:: cos (n * w * dt) + sin (n * w * dt) / (2 * n * q); sin (n * w * dt) / (w * n)];
                [:: - w * sin (n * w * dt) / n; cos (n * w * dt) - sin (n * w * dt) / (2 * n * q)]]) in
  mxd A t (osc_F w q *m A t)%R.
Proof.
move=> w0 q0 n0 hn A; apply: mxd_smat => i j; ordcase i; ordcase j;
  rewrite /=; auto_derive => //; mxsimp; rewrite /sq;
  move: (exp _) (sin _) (cos _) => e s c.
all: field_simplify_eq; try lra.
all: have k : 4 * (q ^ 2 * n ^ 2) = 4 * q ^ 2 - 1 by rewrite hn; field; lra.
all: clear hn; nsatz.
Qed.

Lemma over_ode (w q n t : R) : 0 < w -> 0 < q -> 0 < n -> n ^ 2 = 1 / (4 * q ^ 2) - 1 ->
  let A dt := smul (exp (- (1 / 2) * w * dt / q))
    (mat 2 2 [:: [:: cosh (n * w * dt) + sinh (n * w * dt) / (2 * n * q); sinh (n * w * dt) / (w * n)];
                [:: - w * sinh (n * w * dt) / n; cosh (n * w * dt) - sinh (n * w * dt) / (2 * n * q)]]) in
  mxd A t (osc_F w q *m A t)%R.
Proof.
move=> w0 q0 n0 hn A.
have k : 4 * (q ^ 2 * n ^ 2) = 1 - 4 * q ^ 2 by rewrite hn; field; lra.
apply: mxd_smat => i j; ordcase i; ordcase j;
  rewrite /= /cosh /sinh; auto_derive => //; mxsimp; rewrite /sq /cosh /sinh;
  move: (exp (- (1 / 2) * w * t / q)) (exp (n * w * t)) (exp (- (n * w * t))) => e a b.
all: field_simplify_eq; try lra.
all: clear hn; nsatz.
Qed.

(** Rotations (Cosine and PeriodicTerm). *)
Definition rot_F (o : R) : 'M[R]_2 := mat 2 2 [:: [:: 0; - o]; [:: o; 0]].
Definition rot_A (o dt : R) : 'M[R]_2 :=
  mat 2 2 [:: [:: cos (o * dt); - sin (o * dt)]; [:: sin (o * dt); cos (o * dt)]].
Lemma rot_expm o t : rot_A o t = expm (t *: rot_F o)%R.
Proof.
apply: ode_expm => [{}t|].
  apply: mxd_mat => i j; ordcase i; ordcase j; rewrite /=; auto_derive => //; mxsimp; ring.
by mxeq; rewrite ?Rmult_0_r ?cos_0 ?sin_0; ring.
Qed.

(** Matern-5/2. *)
Lemma m52_ode scale t : mxd (m52_A scale) t (m52_F scale *m m52_A scale t)%R.
Proof.
rewrite /m52_A /m52_F; move: (sqrt 5 / scale) => l.
apply: mxd_smat => i j; ordcase i; ordcase j;
  rewrite /= /sq; auto_derive => //; mxsimp; rewrite /sq; field.
Qed.
Lemma m52_expm scale t : m52_A scale t = expm (t *: m52_F scale)%R.
Proof.
apply: ode_expm; first exact: m52_ode.
rewrite /m52_A; move: (sqrt 5 / scale) => l.
by mxeq; rewrite ?Rmult_0_r ?exp_0 /sq; field.
Qed.

(** Positive definiteness of small matrices from their quadratic forms. *)
Lemma pd2 (P : 'M[R]_2) : (P^T = P)%R ->
  (forall a b, a <> 0 \/ b <> 0 ->
     0 < P 0%R 0%R * a * a + 2 * P 0%R 1%R * a * b + P 1%R 1%R * b * b) -> pdmx P.
Proof.
move=> sP h; split=> // x nz; apply/RltP.
have -> : qf P x = P 0%R 0%R * x 0%R 0%R * x 0%R 0%R + 2 * P 0%R 1%R * x 0%R 0%R * x 1%R 0%R
    + P 1%R 1%R * x 1%R 0%R * x 1%R 0%R.
  have e : P 1%R 0%R = P 0%R 1%R by rewrite -{1}sP mxE.
  have e1 : lift ord0 ord0 = 1%R :> 'I_2 by apply: val_inj.
  rewrite /qf !mxE !big_ord_recl !big_ord0 !mxE !big_ord_recl !big_ord0 !mxE !e1 e; toR.
  have e0 : ord0 = 0%R :> 'I_2 by [].
  by rewrite !e0; ring.
apply: h; case: (Req_dec (x 0%R 0%R) 0) => [z0|]; last by left.
right=> z1; move/eqP: nz; apply; apply/matrixP=> i j; rewrite ord1 mxE.
case: i => -[|[|//]] hi; [rewrite -[RHS]z0 | rewrite -[RHS]z1]; congr (x _ _); exact: val_inj.
Qed.

Lemma pd3 (P : 'M[R]_3) (i0 := 0%R : 'I_3) (i1 := 1%R : 'I_3) (i2 := inord 2 : 'I_3) :
  (P^T = P)%R ->
  (forall a b c, a <> 0 \/ b <> 0 \/ c <> 0 ->
     0 < P i0 i0 * a * a + P i1 i1 * b * b + P i2 i2 * c * c
         + 2 * P i0 i1 * a * b + 2 * P i0 i2 * a * c + 2 * P i1 i2 * b * c) -> pdmx P.
Proof.
move=> sP h; split=> // x nz; apply/RltP.
have e1 : lift ord0 ord0 = i1 by apply: val_inj.
have e2 : lift ord0 (lift ord0 ord0) = i2 by apply: val_inj; rewrite /= inordK.
have sE a b : P a b = P b a by rewrite -{1}sP mxE.
have -> : qf P x = P i0 i0 * x i0 0%R * x i0 0%R + P i1 i1 * x i1 0%R * x i1 0%R
   + P i2 i2 * x i2 0%R * x i2 0%R + 2 * P i0 i1 * x i0 0%R * x i1 0%R
   + 2 * P i0 i2 * x i0 0%R * x i2 0%R + 2 * P i1 i2 * x i1 0%R * x i2 0%R.
  rewrite /qf !mxE !big_ord_recl !big_ord0 !mxE !big_ord_recl !big_ord0 !mxE !e2 !e1.
  have e0 : ord0 = i0 by [].
  rewrite !e0.
  rewrite (sE i1 i0) (sE i2 i0) (sE i2 i1); toR; ring.
apply: h; case: (Req_dec (x i0 0%R) 0) => [z0|]; last by left.
right; case: (Req_dec (x i1 0%R) 0) => [z1|]; last by left.
right=> z2; move/eqP: nz; apply; apply/matrixP=> i j; rewrite ord1 mxE.
case: i => -[|[|[|//]]] hi; [rewrite -[RHS]z0 | rewrite -[RHS]z1 | rewrite -[RHS]z2];
  congr (x _ _); apply: val_inj => //=; by rewrite inordK.
Qed.

Lemma sq_pos x : x <> 0 -> 0 < sq x.
Proof. exact: Rsqr_pos_lt. Qed.
Lemma sq_ge0 x : 0 <= sq x.
Proof. exact: Rle_0_sqr. Qed.

(** The stationary covariance sigma^2 diag(1, c). *)
Lemma pd_diag2 (s c : R) : s <> 0 -> 0 < c ->
  pdmx (smul (sq s) (mat 2 2 [:: [:: 1; 0]; [:: 0; c]])).
Proof.
move=> s0 c0; have p := sq_pos s0; apply: pd2.
  by mxeq; ring.
move=> a b h; mxsimp.
have [a0 b0] := (sq_ge0 a, sq_ge0 b).
have hab : 0 < a * a + c * (b * b).
  case: h => [/sq_pos h|/sq_pos h]; rewrite /sq in h a0 b0; first by nra.
  by have := Rmult_lt_0_compat _ _ c0 h; lra.
by have := Rmult_lt_0_compat _ _ p hab; lra.
Qed.

(** L Qc L^T for a driven last component. *)
Lemma psd_noise2 (c : R) : 0 <= c ->
  psdmx (mat 2 1 [:: [:: 0]; [:: 1]] *m mat 1 1 [:: [:: c]] *m (mat 2 1 [:: [:: 0]; [:: 1]])^T)%R.
Proof. by move=> c0; apply: psd_conj; apply: psd11; rewrite mxE /=; apply/RleP. Qed.
