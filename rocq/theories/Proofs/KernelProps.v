(** Properties of kernel expressions (C11-C17, C22, C46). *)
From Coq Require Import Reals Lra String.
From mathcomp Require Import all_ssreflect all_algebra.
From mathcomp.real_closed Require Import mxtens.
From Coquelicot Require Import Coquelicot.
From Verif.Prelude Require Import Rstruct Psd Zmod Tens MxCalc.
From Verif.Spec Require Import Expm Gp Markov Lti WfKernel Cov.
From Verif.Model Require Import Array Helpers Ssm BaseKernels IntegratedKernels Kernel.
From Verif.Proofs Require Import Expm Lti Leaves LeafLti ShoLti MaternLti KernelLti Evaluate StateCov GramPsd.
Set Implicit Arguments.
Unset Strict Implicit.
Unset Printing Implicit Defensive.
Import Order.TTheory GRing.Theory Num.Theory.
Local Open Scope R_scope.

Lemma lag_add X1 X2 X3 : lag X1 X3 = lag X2 X3 + lag X1 X2.
Proof. by rewrite /lag; ring. Qed.
Lemma lag_refl X : lag X X = 0.
Proof. by rewrite /lag; ring. Qed.

Lemma transition_compose k X1 X2 X3 : wf_kernel k ->
  mA (denote k) X1 X1 = 1%:M%R /\
  mA (denote k) X1 X3 = (mA (denote k) X2 X3 *m mA (denote k) X1 X2)%R.
Proof.
move=> /kernel_lti [G [B h]]; rewrite !(lt_A h) lag_refl; split.
  by rewrite scale0r expm0.
by rewrite (lag_add X1 X2) expm_add.
Qed.

Lemma noise_matches k X1 X2 : wf_kernel k -> noise_kept (lag X1 X2) k ->
  mQ (denote k) X1 X2
  = (mPinf (denote k) - mA (denote k) X1 X2 *m mPinf (denote k) *m (mA (denote k) X1 X2)^T)%R.
Proof.
move=> w h; have [G [B l]] := kernel_lti w.
by rewrite (lt_Qlag l) (kernel_noise w h) /exact_noise !(lt_A l) !lag0.
Qed.

Lemma noise_psd k X1 X2 : wf_kernel k -> noise_kept (lag X1 X2) k -> 0 <= lag X1 X2 ->
  psdmx (mQ (denote k) X1 X2).
Proof.
move=> w h h0; have [G [B l]] := kernel_lti w.
rewrite noise_matches //; apply: (lti_noise_psd l); exact/RleP.
Qed.

(** The band of quality factors that jnp.allclose identifies with 1/2. *)
Definition q_band : R := 1 / 2 + / 10 ^ 6.
Lemma q_band_close : allclose q_band (1 / 2).
Proof.
apply/RlebP; rewrite /q_band.
have -> : 1 / 2 + / 10 ^ 6 - 1 / 2 = / 10 ^ 6 by field.
rewrite !Rabs_pos_eq; lra.
Qed.

Lemma mxd_unique m n (A : R -> 'M[R]_(m, n)) x D E : mxd A x D -> mxd A x E -> D = E.
Proof.
move=> h1 h2; apply/matrixP => i j.
by rewrite -(is_derive_unique _ _ _ (h1 i j)) (is_derive_unique _ _ _ (h2 i j)).
Qed.

Lemma sho_band_not_expm :
  ~ (forall X1 X2, mA (sho_model 1 q_band 1) X1 X2
                   = expm (lag X1 X2 *: mF (sho_model 1 q_band 1))%R).
Proof.
move=> h; have q0 : 0 < q_band by rewrite /q_band; lra.
have e t : expm (t *: sho_F 1 (1 / 2))%R = expm (t *: sho_F 1 q_band)%R.
  have := h (CT 0) (CT t); rewrite lag0 /= => <-; rewrite lag0 sho_A_expm //; try lra.
  by rewrite /sho_quality q_band_close.
have d1 := expm_derl (sho_F 1 (1 / 2)) 0; have d2 := expm_derl (sho_F 1 q_band) 0.
have {d1} d1 := mxd_ext e d1.
have := mxd_unique d1 d2; rewrite !scale0r !expm0 !mulmx1 => /matrixP /(_ 1%R 1%R).
by rewrite !mxE /= /q_band; lra.
Qed.

(** Entries of the process noise below 1e-14 are dropped. *)
Section Flush.
Variables (w sigma : R).
Hypothesis w0 : 0 < w.
Let n := sho_eta 1.
Definition flush_dt : R := PI / 2 / (n * w).
Let dt := flush_dt.

Lemma q1_under : ~~ allclose 1 (1 / 2).
Proof.
apply/RlebP; rewrite (_ : 1 - 1 / 2 = 1 / 2); last by field.
by rewrite Rabs_pos_eq; lra.
Qed.

Lemma n_sq : n * n = 3 / 4.
Proof.
have := eta_under (q := 1); rewrite -/n /= => e.
by have : n * (n * 1) = 1 - 1 / (4 * (1 * (1 * 1))) by [apply: e; lra]; lra.
Qed.
Lemma n_pos : 0 < n. Proof. by apply: eta_pos; lra. Qed.

Lemma xE : n * w * dt = PI / 2.
Proof. by rewrite /dt /flush_dt; have := n_pos; have := w0; move=> *; field; lra. Qed.

Let ex := exp (- (w * dt / 1)).
Lemma raw01 : sho_Q_underdamped_raw w 1 sigma dt 0%R 1%R = sq sigma * (ex * (w * (4 / 3))).
Proof.
rewrite /sho_Q_underdamped_raw !mxE /= -/n xE sin_PI2 /sq n_sq -/ex.
by toR; field.
Qed.
Lemma raw00 : sho_Q_underdamped_raw w 1 sigma dt 0%R 0%R = sq sigma * (1 - ex * (5 / 3)).
Proof.
rewrite /sho_Q_underdamped_raw !mxE /= -/n xE.
have -> : sin (2 * (PI / 2)) = 0 by rewrite (_ : 2 * (PI / 2) = PI); [exact: sin_PI | field].
rewrite sin_PI2 /sq n_sq /expm1 -/ex.
by have := n_pos; move=> np; toR; field; lra.
Qed.

Lemma ex_arg : w * dt / 1 = PI / 2 / n.
Proof. by rewrite /dt /flush_dt; have := n_pos; move=> np; field; lra. Qed.

Lemma n_bound : 3 / 4 < n < 1.
Proof. by have := n_sq; have := n_pos; move=> np h; split; nra. Qed.

Lemma arg_bound : 1 < PI / 2 / n < 3.
Proof.
have [n1 n2] := n_bound; have h1 := PI2_3_2; have h2 := PI_4; have := n_pos => np.
have e : PI / 2 / n * n = PI / 2 by field; lra.
by split; nra.
Qed.

Lemma ex_bound : / 27 < ex < 1 / 2.
Proof.
rewrite /ex ex_arg; have [a1 a2] := arg_bound.
have e1 := exp_le_3; have e2 : 2 < exp 1 by have := exp_ineq1 1; lra.
split.
  have h : exp (- (3)) <= exp (- (PI / 2 / n)) by apply: Rlt_le; apply: exp_increasing; lra.
  have h3 : exp 3 <= 27.
    have -> : 3 = 1 + 1 + 1 by ring. rewrite !exp_plus. 
    have := exp_pos 1; move=> ep; have : exp 1 * exp 1 <= 3 * 3 by nra. nra.
  have : / 27 <= exp (- (3)).
    by rewrite exp_Ropp; apply: Rinv_le_contravar => //; apply: exp_pos.
  have : exp (-(3)) < exp (- (PI / 2 / n)) by apply: exp_increasing; lra.
  by lra.
have : exp (- (PI / 2 / n)) < exp (- (1)) by apply: exp_increasing; lra.
by rewrite (exp_Ropp 1); have : / exp 1 < / 2 by [apply: Rinv_lt_contravar; lra]; lra.
Qed.
End Flush.

Definition flush_sigma : R := / 10 ^ 8.

Lemma flush_kernel_noise : 
  let m := sho_model 1 1 flush_sigma in
  mQ m (CT 0) (CT (flush_dt 1)) 0%R 1%R = 0 /\
  exact_noise m (CT 0) (CT (flush_dt 1)) 0%R 1%R > 0.
Proof.
have w0 : 0 < 1 by lra. have [e1 e2] := ex_bound w0.
have r := raw01 flush_sigma w0.
split=> /=.
  rewrite lag0 /sho_Q (negbTE q1_under).
  have -> : Rltb (1 / 2) 1 by apply/RltbP; lra.
  rewrite /sho_Q_underdamped mxE r /flush; case: RltbP => // h; case: h.
  rewrite Rabs_pos_eq /sq /flush_sigma; nra.
rewrite /exact_noise /= lag0 /sho_A (negbTE q1_under).
have -> : Rltb (1 / 2) 1 by apply/RltbP; lra.
have -> := sho_noise_under flush_sigma (flush_dt 1) w0; last by lra.
rewrite r /sq /flush_sigma; nra.
Qed.

(** With w = 1000 and sigma^2 = 1e-15 the (0,0) entry is dropped and the (0,1)
    entry is kept, so that the result is not positive semidefinite. *)
Definition indef_sigma : R := sqrt (/ 10 ^ 15).
Lemma indef_sq : sq indef_sigma = / 10 ^ 15.
Proof. by rewrite /sq /indef_sigma sqrt_sqrt; lra. Qed.

Lemma flush_not_psd : 
  ~ psdmx (mQ (sho_model 1000 1 indef_sigma) (CT 0) (CT (flush_dt 1000))).
Proof.
have w0 : 0 < 1000 by lra.
have [e1 e2] := ex_bound w0.
rewrite /= lag0 /sho_Q (negbTE q1_under).
have -> : Rltb (1 / 2) 1 by apply/RltbP; lra.
rewrite /sho_Q_underdamped; set raw := sho_Q_underdamped_raw _ _ _ _.
have r00 : raw 0%R 0%R = _ := raw00 indef_sigma w0.
have r01 : raw 0%R 1%R = _ := raw01 indef_sigma w0.
have f00 : flush_mx raw 0%R 0%R = 0.
  rewrite mxE r00 /flush; case: RltbP => // h; case: h.
  by rewrite indef_sq Rabs_pos_eq; lra.
have f01 : flush_mx raw 0%R 1%R = raw 0%R 1%R.
  rewrite mxE flush_id //; right; rewrite r01 indef_sq Rabs_pos_eq; lra.
have h01 : raw 0%R 1%R > 0 by rewrite r01 indef_sq; lra.
move: (flush_mx raw) f00 f01 => Q f00 f01 pQ.
have q0 : (qf Q (delta_mx 0 0) = 0)%R.
  by rewrite /qf -mulmxA -colE trmx_delta -rowE !mxE.
have := psd_ker pQ q0; rewrite -colE => /matrixP /(_ 1%R 0%R).
rewrite !mxE; case: pQ => sQ _; rewrite -sQ mxE f01 => e.
by move: h01; rewrite e; apply: Rgt_irrefl.
Qed.

(** Scale: the covariance is scaled, the process noise is not. *)
Lemma evaluate_scale a m X1 X2 :
  evaluate (scale_model a m) X1 X2 = a * evaluate m X1 X2.
Proof.
by rewrite /evaluate /=; case: ifP => _; rewrite -?scalemxAr -!scalemxAl -?scalemxAr -?scalemxAl [LHS]mxE.
Qed.

Lemma scale_noise_wrong :
  mQ (denote (Scale 4 (Exp 1 1 "Exp") "Scale")) (CT 0) (CT 1)
  <> exact_noise (denote (Scale 4 (Exp 1 1 "Exp") "Scale")) (CT 0) (CT 1).
Proof.
move/matrixP/(_ 0%R 0%R); rewrite /exact_noise /= lag0; mxsimp.
have -> : -2 * 1 * (1 / 1) = -1 + -1 by field.
rewrite (_ : - (1) / 1 = -1); last by field.
rewrite exp_plus /sq; have : exp (-1) < exp 0 by apply: exp_increasing; lra.
by rewrite exp_0; have := exp_pos (-1); nra.
Qed.

(** evaluate of a stationary kernel. *)
Lemma evaluate_sym k X1 X2 : wf_kernel k -> const_obs k ->
  evaluate (denote k) X1 X2 = evaluate (denote k) X2 X1.
Proof.
move=> w c; rewrite (kernel_evaluate_obs_cov X1 X2 w c) (kernel_evaluate_obs_cov X2 X1 w c).
exact: (obs_cov_sym (kernel_ideal_valid w)).
Qed.

Lemma evaluate_gram_psd k (xs : seq coord) : wf_kernel k -> const_obs k ->
  psdmx (@gram _ coord (CT 0) (evaluate (denote k)) xs).
Proof.
move=> w c; have v := kernel_ideal_valid w.
have := gram_psd v (map coord_to_sortable xs).
set ts := map _ _; have e : size xs = size ts by rewrite size_map.
move=> [s p]; split.
  by apply/matrixP => i j; rewrite !mxE evaluate_sym.
move=> x.
have := p (castmx (e, erefl) x); congr (_ <= _)%R.
rewrite /qf !mxE.
under [RHS]eq_bigr do rewrite !mxE mulr_suml.
rewrite (reindex (cast_ord e)) /=; last first.
  by exists (cast_ord (esym e)) => i _; apply/val_inj.
apply: eq_bigr => j _; rewrite mxE mulr_suml castmxE /=.
rewrite (reindex (cast_ord e)) /=; last first.
  by exists (cast_ord (esym e)) => i _; apply/val_inj.
have hc (u : 'I_(size xs)) : cast_ord (esym e) (cast_ord e u) = u by apply/val_inj.
apply: eq_bigr => i _; rewrite !mxE castmxE /= !hc cast_ord_id.
rewrite kernel_evaluate_obs_cov // !(nth_map (CT 0)) //.
Qed.

(** An observation matrix that depends on time makes evaluate asymmetric. *)
Definition tv_model : model :=
  {| md := md (matern32_model 1 1); mF := mF (matern32_model 1 1);
     mp := mp (matern32_model 1 1); mL := mL (matern32_model 1 1);
     mQc := mQc (matern32_model 1 1); mPinf := mPinf (matern32_model 1 1);
     mH := fun X => if Rltb (coord_to_sortable X) 1 then mat 1 2 [:: [:: 1; 0]]
                    else mat 1 2 [:: [:: 0; 1]];
     mA := mA (matern32_model 1 1); mQ := mQ (matern32_model 1 1);
     mReset := mReset (matern32_model 1 1) |}.
Lemma tv_lti : declared_lti tv_model.
Proof.
have [h1 h2 h3 h4 h5] : declared_lti (matern32_model 1 1) by apply: m32_lti; lra.
by constructor.
Qed.
Lemma tv_asym : evaluate tv_model (CT 0) (CT 1) <> evaluate tv_model (CT 1) (CT 0).
Proof.
rewrite /evaluate /= (_ : Rltb 0 1); last by apply/RltbP; lra.
rewrite (_ : Rltb 1 0 = false); last by apply/RltbP; lra.
rewrite (_ : Rltb 1 1 = false); last by apply/RltbP; lra.
rewrite /m32_A; mxsimp; rewrite /lag /=.
have l0 : 0 < sqrt 3 / 1 by rewrite /Rdiv Rinv_1 Rmult_1_r; apply: sqrt_lt_R0; lra.
move: (sqrt 3 / 1) l0 => l l0; have := exp_pos (- l * (1 - 0)).
rewrite /sq; move: (exp _) => e e0.
have := Rmult_lt_0_compat _ _ e0 (Rmult_lt_0_compat _ _ l0 l0).
by lra.
Qed.

(** The generic Matern class. *)
Section C46.
Variables (scale sigma : R).
Hypothesis scale0 : 0 < scale.

Lemma matern_unique p (P : 'M[R]_p.+1) :
  (matern_F p scale *m P + P *m (matern_F p scale)^T
   + matern_L p *m matern_Qc p scale sigma *m (matern_L p)^T = 0)%R ->
  matern_Pinf p scale sigma = P.
Proof.
move=> h; have inj := stable_inj (lam_pos p scale0) (matern_nilp p scale).
apply/eqP; rewrite -subr_eq0; apply/eqP; apply: inj.
have := @matern_lyap p scale sigma scale0.
move: (matern_Pinf p scale sigma) h => P' e1 e2.
rewrite /lyap_op -[RHS](subrr (0%R : 'M[R]_p.+1)) -{1}e2 -e1; mxzmod.
Qed.

Lemma matern_lam0 : matern_lam 0 scale = 1 / scale.
Proof.
rewrite /matern_lam /= (_ : 2 * (0 + 1 / 2) = 1); last by field.
by rewrite sqrt_1.
Qed.
Lemma matern_lam1 : matern_lam 1 scale = sqrt 3 / scale.
Proof. by rewrite /matern_lam /= (_ : 2 * (1 + 1 / 2) = 3) //; field. Qed.
Lemma matern_lam2 : matern_lam 2 scale = sqrt 5 / scale.
Proof. by rewrite /matern_lam /= (_ : 2 * (1 + 1 + 1 / 2) = 5) //; field. Qed.

Lemma two_int : (1%R *~ 2%Z)%R = 2 :> R.
Proof. by rewrite -pmulrn RnatE /=; ring. Qed.

Ltac matern_entry := rewrite ?mxE ?two_int /= ?matern_lam0 ?matern_lam1 ?matern_lam2 /sq /=; toR; field; lra.

Lemma matern0_F : matern_F 0 scale = mF (exp_model scale sigma).
Proof. by apply/matrixP => i j; ordcase i; ordcase j; matern_entry. Qed.
Lemma matern1_F : matern_F 1 scale = mF (matern32_model scale sigma).
Proof. by apply/matrixP => i j; ordcase i; ordcase j; matern_entry. Qed.
Lemma matern2_F : matern_F 2 scale = mF (matern52_model scale sigma).
Proof. by apply/matrixP => i j; ordcase i; ordcase j; matern_entry. Qed.
Lemma matern0_Q : matern_Qc 0 scale sigma = mQc (exp_model scale sigma).
Proof. by apply/matrixP => i j; ordcase i; ordcase j; matern_entry. Qed.
Lemma matern1_Q : matern_Qc 1 scale sigma = mQc (matern32_model scale sigma).
Proof.
apply/matrixP => i j; ordcase i; ordcase j.
rewrite !mxE two_int matern_lam1 /= /sq; toR; rewrite /INR /=.
have s3 : sqrt 3 * sqrt 3 = 3 by apply: sqrt_sqrt; lra.
by field; lra.
Qed.
Lemma matern2_Q : matern_Qc 2 scale sigma = mQc (matern52_model scale sigma).
Proof.
apply/matrixP => i j; ordcase i; ordcase j.
rewrite !mxE two_int matern_lam2 /sq; toR.
by rewrite /INR /=; field; lra.
Qed.
Lemma matern0_L : matern_L 0 = mL (exp_model scale sigma).
Proof. by apply/matrixP => i j; ordcase i; ordcase j; rewrite !mxE. Qed.
Lemma matern1_L : matern_L 1 = mL (matern32_model scale sigma).
Proof. by apply/matrixP => i j; ordcase i; ordcase j; rewrite !mxE. Qed.
Lemma matern2_L : matern_L 2 = mL (matern52_model scale sigma).
Proof. by apply/matrixP => i j; ordcase i; ordcase j; rewrite !mxE. Qed.
Lemma matern0_H X : matern_H 0 = mH (exp_model scale sigma) X.
Proof. by apply/matrixP => i j; ordcase i; ordcase j; rewrite !mxE. Qed.
Lemma matern1_H X : matern_H 1 = mH (matern32_model scale sigma) X.
Proof. by apply/matrixP => i j; ordcase i; ordcase j; rewrite !mxE. Qed.
Lemma matern2_H X : matern_H 2 = mH (matern52_model scale sigma) X.
Proof. by apply/matrixP => i j; ordcase i; ordcase j; rewrite !mxE. Qed.

Hypothesis sigma0 : sigma <> 0.

Lemma matern0_P : matern_Pinf 0 scale sigma = mPinf (exp_model scale sigma).
Proof.
apply: matern_unique; rewrite matern0_F matern0_Q matern0_L.
exact: (lt_lyap (exp_lti scale0 sigma0)).
Qed.
Lemma matern1_P : matern_Pinf 1 scale sigma = mPinf (matern32_model scale sigma).
Proof.
apply: matern_unique; rewrite matern1_F matern1_Q matern1_L.
exact: (lt_lyap (m32_lti scale0 sigma0)).
Qed.
Lemma matern2_P : matern_Pinf 2 scale sigma = mPinf (matern52_model scale sigma).
Proof.
apply: matern_unique; rewrite matern2_F matern2_Q matern2_L.
exact: (lt_lyap (m52_lti scale0 sigma0)).
Qed.

Lemma matern0_A X1 X2 : mA (matern_model 0 scale sigma) X1 X2 = mA (exp_model scale sigma) X1 X2.
Proof. by rewrite (lt_A (exp_lti scale0 sigma0)) /= /default_transition matern0_F. Qed.
Lemma matern1_A X1 X2 : mA (matern_model 1 scale sigma) X1 X2 = mA (matern32_model scale sigma) X1 X2.
Proof. by rewrite (lt_A (m32_lti scale0 sigma0)) /= /default_transition matern1_F. Qed.
Lemma matern2_A X1 X2 : mA (matern_model 2 scale sigma) X1 X2 = mA (matern52_model scale sigma) X1 X2.
Proof. by rewrite (lt_A (m52_lti scale0 sigma0)) /= /default_transition matern2_F. Qed.

Lemma matern0_eval X1 X2 :
  evaluate (matern_model 0 scale sigma) X1 X2 = evaluate (exp_model scale sigma) X1 X2.
Proof.
rewrite /evaluate !matern0_A -[mPinf (matern_model _ _ _)]/(matern_Pinf _ _ _) matern0_P.
have e1 : mH (matern_model 0 scale sigma) X1 = mH (exp_model scale sigma) X1 by exact: matern0_H.
have e2 : mH (matern_model 0 scale sigma) X2 = mH (exp_model scale sigma) X2 by exact: matern0_H.
by rewrite e1 e2.
Qed.
Lemma matern1_eval X1 X2 :
  evaluate (matern_model 1 scale sigma) X1 X2 = evaluate (matern32_model scale sigma) X1 X2.
Proof.
rewrite /evaluate !matern1_A -[mPinf (matern_model _ _ _)]/(matern_Pinf _ _ _) matern1_P.
have e1 : mH (matern_model 1 scale sigma) X1 = mH (matern32_model scale sigma) X1 by exact: matern1_H.
have e2 : mH (matern_model 1 scale sigma) X2 = mH (matern32_model scale sigma) X2 by exact: matern1_H.
by rewrite e1 e2.
Qed.
Lemma matern2_eval X1 X2 :
  evaluate (matern_model 2 scale sigma) X1 X2 = evaluate (matern52_model scale sigma) X1 X2.
Proof.
rewrite /evaluate !matern2_A -[mPinf (matern_model _ _ _)]/(matern_Pinf _ _ _) matern2_P.
have e1 : mH (matern_model 2 scale sigma) X1 = mH (matern52_model scale sigma) X1 by exact: matern2_H.
have e2 : mH (matern_model 2 scale sigma) X2 = mH (matern52_model scale sigma) X2 by exact: matern2_H.
by rewrite e1 e2.
Qed.
End C46.
