(** Every well-formed kernel expression is a stationary SDE. *)
From Coq Require Import Reals Lra.
From mathcomp Require Import all_ssreflect all_algebra.
From mathcomp.real_closed Require Import mxtens.
From Verif.Prelude Require Import Rstruct Psd Zmod Tens.
From Verif.Spec Require Import Expm Markov Lti WfKernel.
From Verif.Model Require Import Array Helpers Ssm BaseKernels IntegratedKernels Kernel.
From Verif.Proofs Require Import Expm Lti Leaves LeafLti ShoLti MaternLti.
Set Implicit Arguments.
Unset Strict Implicit.
Unset Printing Implicit Defensive.
Import Order.TTheory GRing.Theory Num.Theory.
Local Open Scope R_scope.

(** Constant *)
Lemma constant_lti sigma : sigma <> 0 -> declared_lti (constant_model sigma).
Proof.
move=> /sq_pos g; constructor=> /=.
- move=> X1 X2; have -> : (lag X1 X2 *: mat 1 1 [:: [:: 0]] = 0 :> 'M_1)%R by mxeq; ring.
  by rewrite expm0; mxeq.
- by apply: pd11; rewrite mxE /=; apply/RltP.
- by mxeq; ring.
- by apply: psd_conj; apply: psd11; rewrite mxE /= lexx.
- by [].
Qed.
Lemma constant_noise sigma dt : noise_exact_at (constant_model sigma) dt.
Proof. by rewrite /noise_exact_at /exact_noise /=; mxeq; ring. Qed.

(** PeriodicTerm *)
Lemma bessel_term_pos j x k : 0 < bessel_term j x k.
Proof. exact: exp_pos. Qed.

Lemma periodic_q2_pos j scale : 0 < periodic_q2 j scale.
Proof.
rewrite /periodic_q2; have h : 0 < Ij j (1 / scale) 50.
  rewrite /Ij big_nat_recl //.
  have h0 : 0 < bessel_term j (1 / scale) 0 by apply: bessel_term_pos.
  suff h1 : 0 <= (\sum_(0 <= i < 49) bessel_term j (1 / scale) i.+1)%R by apply: Rplus_lt_le_0_compat.
  by apply/RleP; apply: sumr_ge0 => i _; apply/RleP; apply: Rlt_le; apply: bessel_term_pos.
apply: Rdiv_lt_0_compat; last exact: exp_pos.
by case: ifP => _; lra.
Qed.

Lemma scal_pd (c : R) : 0 < c -> pdmx (smul c (mat 2 2 [:: [:: 1; 0]; [:: 0; 1]])).
Proof.
move=> c0; have -> : mat 2 2 [:: [:: 1; 0]; [:: 0; 1]] = 1%:M%R by mxeq.
by apply: pdZ (pd1 _ _); apply/RltP.
Qed.

Lemma periodic_lti j omega scale : declared_lti (periodic_model j omega scale).
Proof.
have e : - omega * INR j = - (omega * INR j) by ring.
constructor=> /=.
- move=> X1 X2; rewrite e; have := rot_expm (omega * INR j) (lag X1 X2).
  by rewrite /rot_A /rot_F => <-; rewrite (Rmult_comm (INR j)).
- exact/scal_pd/periodic_q2_pos.
- by rewrite e -[mat 2 2 [:: [:: 0; _]; _]]/(rot_F _) rot_lti_P mulmx0 mul0mx addr0.
- by rewrite mulmx0 mul0mx; apply: psd0.
- by [].
Qed.
Lemma periodic_noise j omega scale dt : noise_exact_at (periodic_model j omega scale) dt.
Proof.
by rewrite /noise_exact_at /exact_noise /= lag0 -[mat 2 2 [:: [:: cos _; _]; _]]/(rot_A _ _) rot_noise.
Qed.

(** Declared SDEs of composite models. *)
Lemma declared_sum m1 m2 : declared_lti m1 -> declared_lti m2 -> declared_lti (sum_model m1 m2).
Proof.
move=> h1 h2; have := lti_sum h1 h2; rewrite /declared_lti /=.
by rewrite tr_block_mx !trmx0 !mulmx_block !(mulmx0, mul0mx) !(addr0, add0r) !mul0mx.
Qed.
Lemma declared_product m1 m2 :
  declared_lti m1 -> declared_lti m2 -> declared_lti (product_model m1 m2).
Proof.
by move=> h1 h2; have := lti_product h1 h2; rewrite /declared_lti /= trmx1 mulmx1 mul1mx.
Qed.
Lemma declared_scale a m : (0 < a)%R -> declared_lti m -> declared_lti (scale_model a m).
Proof.
by move=> a0 h; have := lti_scale h a0; rewrite /declared_lti /= -scalemxAr -scalemxAl.
Qed.

(** ExpSineSquared *)
Lemma periodic_sum_lti J omega scale : declared_lti (periodic_sum J omega scale).
Proof.
elim: J => [|[|j] IH] /=; try exact: periodic_lti.
by apply: declared_sum; [exact: IH | exact: periodic_lti].
Qed.
Lemma periodic_sum_Qc J omega scale : (mQc (periodic_sum J omega scale) = 0)%R.
Proof.
elim: J => [|[|j] IH] //.
rewrite [LHS]/=. rewrite [X in block_mx X]IH.
by rewrite block_mx0.
Qed.
Lemma periodic_sum_Q J omega scale X1 X2 : (mQ (periodic_sum J omega scale) X1 X2 = 0)%R.
Proof.
elim: J => [|[|j] IH] //.
rewrite [LHS]/=. rewrite [X in block_mx X]IH.
by rewrite block_mx0.
Qed.
Lemma periodic_sum_noise J omega scale dt : noise_exact_at (periodic_sum J omega scale) dt.
Proof.
elim: J => [|[|j] IH]; try exact: periodic_noise.
by apply: noise_sum; [exact: IH | exact: periodic_noise].
Qed.

Lemma ess_declared period gamma sigma order : sigma <> 0 ->
  declared_lti (ess_model period gamma sigma order).
Proof.
move=> g0; have := lti_ess_wrap (periodic_sum_lti (ess_order gamma order) (ess_omega period)
   (ess_scale gamma)) g0.
by rewrite /declared_lti /= periodic_sum_Qc mulmx0 mul0mx scaler0.
Qed.
Lemma ess_noise period gamma sigma order dt : noise_exact_at (ess_model period gamma sigma order) dt.
Proof.
have := periodic_sum_noise (ess_order gamma order) (ess_omega period) (ess_scale gamma) dt.
rewrite /noise_exact_at /exact_noise /= periodic_sum_Q => e.
by rewrite -scalemxAr -scalemxAl -scalerBr -e scaler0.
Qed.

(** Scale *)
Lemma scale_noise a m dt : noise_exact_at m dt -> a = 1 \/ mQ m (CT 0) (CT dt) = 0%R ->
  noise_exact_at (scale_model a m) dt.
Proof.
rewrite /noise_exact_at /exact_noise /= => e; rewrite -scalemxAr -scalemxAl -scalerBr -e.
by case=> ->; rewrite ?scaler0 ?scale1r.
Qed.

Theorem kernel_declared k : wf_kernel k -> sharp_kernel k -> declared_lti (denote k).
Proof.
elim: k => //=.
- by move=> sigma _ h _; apply: constant_lti.
- by move=> w q sigma _ [w0 [q0 g0]] h; apply: sho_declared.
- by move=> scale sigma _ [s0 g0] _; apply: exp_lti.
- by move=> scale sigma _ [s0 g0] _; apply: m32_lti.
- by move=> scale sigma _ [s0 g0] _; apply: m52_lti.
- by move=> scale sigma _ [_ g0] _; apply: cosine_lti.
- by move=> j omega scale _ _; apply: periodic_lti.
- by move=> period gamma sigma order _ [_ [_ g0]] _; apply: ess_declared.
- by move=> p scale sigma [s0 g0] _; apply: matern_lti.
- by move=> a k IH _ [a0 h] hs; apply: declared_scale (IH h hs); apply/RltP.
- by move=> k1 IH1 k2 IH2 [h1 h2] [s1 s2]; apply: declared_sum; [apply: IH1 | apply: IH2].
- by move=> k1 IH1 k2 IH2 [h1 h2] [s1 s2]; apply: declared_product; [apply: IH1 | apply: IH2].
Qed.

Theorem kernel_lti k : wf_kernel k -> exists G B : 'M[R]_(md (denote k)), lti G B.
Proof.
have decl m : declared_lti m -> exists G B : 'M[R]_(md m), lti G B by move=> h; do 2 eexists; exact: h.
elim: k => //=.
- by move=> sigma _ h; exact: (decl _ (constant_lti h)).
- by move=> w q sigma _ [w0 [q0 g0]]; do 2 eexists; apply: sho_lti.
- by move=> scale sigma _ [s0 g0]; exact: (decl _ (exp_lti s0 g0)).
- by move=> scale sigma _ [s0 g0]; exact: (decl _ (m32_lti s0 g0)).
- by move=> scale sigma _ [s0 g0]; exact: (decl _ (m52_lti s0 g0)).
- by move=> scale sigma _ [_ g0]; exact: (decl _ (cosine_lti _ g0)).
- by move=> j omega scale _; exact: (decl _ (periodic_lti _ _ _)).
- by move=> period gamma sigma order _ [_ [_ g0]]; exact: (decl _ (ess_declared _ _ _ g0)).
- by move=> p scale sigma [s0 g0]; exact: (decl _ (matern_lti _ s0 g0)).
- move=> a k IH _ [a0 h]; have [G [B hG]] := IH h; exists G, (a *: B)%R.
  by apply: lti_scale hG _; apply/RltP.
- move=> k1 IH1 k2 IH2 [h1 h2]; have [G1 [B1 hG1]] := IH1 h1; have [G2 [B2 hG2]] := IH2 h2.
  do 2 eexists; exact: lti_sum hG1 hG2.
- move=> k1 IH1 k2 IH2 [h1 h2]; have [G1 [B1 hG1]] := IH1 h1; have [G2 [B2 hG2]] := IH2 h2.
  do 2 eexists; exact: lti_product hG1 hG2.
Qed.

Theorem kernel_noise dt k : wf_kernel k -> noise_kept dt k -> noise_exact_at (denote k) dt.
Proof.
elim: k => //=.
- by move=> sigma _ _ _; apply: constant_noise.
- by move=> w q sigma _ [w0 [q0 g0]] h; apply: sho_noise.
- by move=> scale sigma _ [s0 g0] _; apply: exp_noise; lra.
- by move=> scale sigma _ _ _; apply: m32_noise.
- by move=> scale sigma _ _ _; apply: m52_noise.
- by move=> scale sigma _ _ _; apply: cosine_noise.
- by move=> j omega scale _ _; apply: periodic_noise.
- by move=> period gamma sigma order _ _ _; apply: ess_noise.
- by move=> a k IH _ [a0 h] [hk ha]; apply: scale_noise => //; apply: IH.
- by move=> k1 IH1 k2 IH2 [h1 h2] [s1 s2]; apply: noise_sum; [apply: IH1 | apply: IH2].
- by move=> k1 IH1 k2 IH2 [h1 h2] [s1 s2]; apply: noise_product; [apply: IH1 | apply: IH2].
Qed.

Theorem kernel_ideal_valid k : wf_kernel k -> valid_ssm (to_ssm (ideal (denote k))).
Proof. by move=> /kernel_lti [G [B h]]; apply: lti_ideal_valid h. Qed.

Lemma periodic_sum_H J omega scale X Y :
  mH (periodic_sum J omega scale) X = mH (periodic_sum J omega scale) Y.
Proof. by elim: J => [|[|j] IH] //; rewrite [LHS]/= [RHS]/=; congr row_mx; exact: IH. Qed.

Lemma const_obsP k X Y : const_obs k -> mH (denote k) X = mH (denote k) Y.
Proof.
elim: k => //=.
- by move=> period gamma sigma order _ _; apply: periodic_sum_H.
- by move=> k1 IH1 k2 IH2 [h1 h2]; congr row_mx; [apply: IH1 | apply: IH2].
- by move=> k1 IH1 k2 IH2 [h1 h2]; rewrite (IH1 h1) (IH2 h2).
Qed.
