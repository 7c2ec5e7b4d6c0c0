(** Kernel-level theorems in their final form. *)
From Coq Require Import Reals Lra Lia String.
From mathcomp Require Import all_ssreflect all_algebra.
From mathcomp.real_closed Require Import mxtens.
From Coquelicot Require Import Coquelicot.
From Verif.Prelude Require Import Rstruct Psd Zmod Tens MxCalc.
From Verif.Spec Require Import Expm Gp Markov Lti WfKernel Cov CovOf.
From Verif.Model Require Import Array Helpers Ssm BaseKernels IntegratedKernels Kernel.
From Verif.Proofs Require Import Expm Lti Leaves LeafLti ShoLti MaternLti KernelLti Evaluate StateCov GramPsd KernelProps.
Set Implicit Arguments.
Unset Strict Implicit.
Unset Printing Implicit Defensive.
Import Order.TTheory GRing.Theory Num.Theory.
Local Open Scope R_scope.

Lemma no_constant_raises k : no_constant k -> transition_raises false k = None.
Proof. by elim: k => //= k1 IH1 k2 IH2 [h1 h2]; rewrite IH1 ?IH2. Qed.
Lemma no_exp_raises k : no_constant k -> no_exp k -> transition_raises true k = None.
Proof. by elim: k => //= k1 IH1 k2 IH2 [h1 h2] [e1 e2]; rewrite IH1 ?IH2. Qed.

Lemma kernel_transition_inr py k X1 X2 A :
  kernel_transition py k X1 X2 = inr A -> transition_raises py k = None /\ A = mA (denote k) X1 X2.
Proof. by rewrite /kernel_transition; case: (transition_raises py k) => // -[]. Qed.

Lemma kernel_evaluate_inr py k X1 X2 v :
  kernel_evaluate py k X1 X2 = inr v -> transition_raises py k = None /\ v = evaluate (denote k) X1 X2.
Proof.
case e : (transition_raises py k) => [x|]; first by rewrite (kernel_evaluate_err _ _ e).
by rewrite (kernel_evaluateE _ _ e) => -[].
Qed.

Lemma transition_composes py k X1 X2 X3 A12 A23 : wf_kernel k ->
  kernel_transition py k X1 X2 = inr A12 -> kernel_transition py k X2 X3 = inr A23 ->
  kernel_transition py k X1 X1 = inr 1%:M%R /\
  kernel_transition py k X1 X3 = inr (A23 *m A12)%R.
Proof.
move=> w /kernel_transition_inr [e ->] /kernel_transition_inr [_ ->].
by rewrite /kernel_transition e; have [-> ->] := transition_compose X1 X2 X3 w.
Qed.

Lemma transition_defined k X1 X2 : no_constant k ->
  exists A, kernel_transition false k X1 X2 = inr A.
Proof. by move=> h; rewrite /kernel_transition no_constant_raises //; eexists. Qed.

Lemma transition_expm py k X1 X2 A : wf_kernel k -> sharp_kernel k ->
  kernel_transition py k X1 X2 = inr A -> A = expm (lag X1 X2 *: mF (denote k))%R.
Proof. by move=> w s /kernel_transition_inr [_ ->]; apply: (lt_A (kernel_declared w s)). Qed.

Lemma noise_formula py k X1 X2 A : wf_kernel k -> noise_kept (lag X1 X2) k ->
  kernel_transition py k X1 X2 = inr A ->
  mQ (denote k) X1 X2 = (mPinf (denote k) - A *m mPinf (denote k) *m A^T)%R.
Proof. by move=> w h /kernel_transition_inr [_ ->]; apply: noise_matches. Qed.

(** The declared matrices satisfy the Lyapunov equation. *)
Definition lyap_ok m := (mF m *m mPinf m + mPinf m *m (mF m)^T + mL m *m mQc m *m (mL m)^T = 0)%R.

Lemma sho_lyap w q sigma : 0 < w -> 0 < q -> lyap_ok (sho_model w q sigma).
Proof.
move=> w0 q0; rewrite /lyap_ok /= /sho_F /sho_Pinf /sho_L /sho_Qc /sq.
by mxeq; field; lra.
Qed.

Lemma kernel_lyap k : wf_kernel k -> declares_lyapunov k -> lyap_ok (denote k).
Proof.
elim: k => //=.
- by move=> sigma _ h _; apply: (lt_lyap (constant_lti h)).
- by move=> w q sigma _ [w0 [q0 g0]] _; apply: sho_lyap.
- by move=> scale sigma _ [s0 g0] _; apply: (lt_lyap (exp_lti s0 g0)).
- by move=> scale sigma _ [s0 g0] _; apply: (lt_lyap (m32_lti s0 g0)).
- by move=> scale sigma _ [s0 g0] _; apply: (lt_lyap (m52_lti s0 g0)).
- by move=> scale sigma _ [s0 g0] _; apply: (lt_lyap (cosine_lti scale g0)).
- by move=> j omega scale _ _; apply: (lt_lyap (periodic_lti j omega scale)).
- by move=> period gamma sigma order _ [_ [_ g0]] _; apply: (lt_lyap (ess_declared period gamma order g0)).
- by move=> p scale sigma [s0 g0] _; apply: (lt_lyap (matern_lti p s0 g0)).
- move=> a k IH _ [a0 w] d; have := IH w d; rewrite /lyap_ok /= => e.
  by rewrite -!scalemxAr -!scalemxAl -!scalerDr e scaler0.
- move=> k1 IH1 k2 IH2 [w1 w2] [d1 d2]; have {IH1} := IH1 w1 d1; have {IH2} := IH2 w2 d2.
  rewrite /lyap_ok /= => e2 e1.
  rewrite !tr_block_mx !trmx0 !mulmx_block !(mul0mx, mulmx0, addr0, add0r).
  by rewrite !add_block_mx !addr0 e1 e2 block_mx_const.
- move=> k1 IH1 k2 IH2 [w1 w2] [d1 d2]; have {IH1} := IH1 w1 d1; have {IH2} := IH2 w2 d2.
  rewrite /lyap_ok /= trmx1 mulmx1 mul1mx.
  move: (mF (denote k1)) (mF (denote k2)) (mPinf (denote k1)) (mPinf (denote k2)) => F1 F2 P1 P2.
  set B2 := (mL (denote k2) *m _ *m _)%R; set B1 := (mL (denote k1) *m _ *m _)%R.
  move: B1 B2 => B1 B2 e2 e1.
  rewrite linearD /= !trmx_tens !trmx1 mulmxDl mulmxDr !tensmx_mul !mul1mx !mulmx1.
  have -> : (B1 = - (F1 *m P1 + P1 *m F1^T))%R.
    by apply/eqP; rewrite -addr_eq0 addrC e1.
  have -> : (B2 = - (F2 *m P2 + P2 *m F2^T))%R.
    by apply/eqP; rewrite -addr_eq0 addrC e2.
  by rewrite tensNl tensNr tensDl tensDr; zmod.
Qed.

Lemma kernel_pinf_pd k : wf_kernel k -> pdmx (mPinf (denote k)).
Proof. by move=> /kernel_lti [G [B h]]; apply: (lt_P h). Qed.

(** C15, C17 *)
Lemma evaluate_covariance k X1 X2 : wf_kernel k -> documented k ->
  evaluate (denote k) X1 X2 = covariance k (alag X1 X2).
Proof.
elim: k => //=.
- by move=> s _ _ _; apply: evaluate_constant.
- move=> w q s _ [w0 [q0 s0]] h; case: Req_EM_T => [e|ne].
    by rewrite e; apply: evaluate_sho_critical; apply: allclose_half.
  have {}h : ~~ allclose q (1 / 2) by case: h => // ->.
  case: Rlt_dec => hq; first exact: evaluate_sho_under.
  by apply: evaluate_sho_over => //; lra.
- by move=> l s _ _ _; apply: evaluate_exp.
- by move=> l s _ _ _; apply: evaluate_matern32.
- by move=> l s _ [l0 _] _; apply: evaluate_matern52.
- by move=> l s _ _ _; apply: evaluate_cosine.
- by move=> a k IH _ [_ w] d; rewrite evaluate_scale IH.
- by move=> k1 IH1 k2 IH2 [w1 w2] [d1 d2]; rewrite evaluate_sum IH1 // IH2.
- by move=> k1 IH1 k2 IH2 [w1 w2] [d1 d2]; rewrite evaluate_product IH1 // IH2.
Qed.

Lemma kernel_evaluate_covariance py k X1 X2 v : wf_kernel k -> documented k ->
  kernel_evaluate py k X1 X2 = inr v ->
  v = covariance k (Rabs (coord_to_sortable X1 - coord_to_sortable X2)).
Proof. by move=> w d /kernel_evaluate_inr [_ ->]; rewrite evaluate_covariance. Qed.

Lemma kernel_evaluate_defined k X1 X2 : no_constant k ->
  exists v, kernel_evaluate false k X1 X2 = inr v.
Proof. by move=> h; rewrite kernel_evaluateE ?no_constant_raises //; eexists. Qed.

Lemma kernel_evaluate_sym py k X1 X2 : wf_kernel k -> const_obs k ->
  kernel_evaluate py k X1 X2 = kernel_evaluate py k X2 X1.
Proof.
move=> w c; case e : (transition_raises py k) => [x|]; first by rewrite !(kernel_evaluate_err _ _ e).
by rewrite !(kernel_evaluateE _ _ e) evaluate_sym.
Qed.

Lemma sho_covariance0 w q s n : covariance (SHO w q s n) 0 = s ^ 2.
Proof.
rewrite /= /cov_sho_critical /cov_sho_under /cov_sho_over.
case: Req_EM_T => _ /=; [|case: Rlt_dec => _ /=];
  rewrite ?/Rdiv !(Rmult_0_r, Rmult_0_l) ?exp_0 ?cos_0 ?sin_0 ?cosh_0 ?sinh_0; ring.
Qed.

(** The value printed in the docstring of SHO for Q > 1/2. *)
Lemma sho_docstring_wrong : 
  kernel_evaluate false (SHO 1 1 1 "SHO") (CT 0) (CT 0)
  <> inr (cov_sho_under_docstring 1 1 1 0).
Proof.
rewrite kernel_evaluateE // => -[].
rewrite evaluate_sho_under; try lra; last exact: q1_under.
rewrite /cov_sho_under /cov_sho_under_docstring /alag /= Rminus_0_r Rabs_R0.
rewrite /Rdiv !Rmult_0_r Rmult_0_l exp_0 cos_0 sin_0.
have [n1 n2] : 3 / 4 < eta 1 < 1 := n_bound.
move: (eta 1) n1 n2 => n n1 n2; rewrite !Rmult_1_r !Rmult_0_r !Rmult_1_l !Rplus_0_r => e.
have : 2 * n * / (2 * n) = 1 by field; lra.
by rewrite -e; lra.
Qed.

(** In the allclose band the value is the critically damped one. *)
Lemma sho_band_wrong : exists X1 X2,
  kernel_evaluate false (SHO 1 q_band 1 "SHO") X1 X2
  <> inr (cov_sho_under 1 q_band 1 (Rabs (coord_to_sortable X1 - coord_to_sortable X2))).
Proof.
have n0 : 0 < eta q_band by apply: eta_pos; rewrite /q_band; lra.
exists (CT 0), (CT (PI / eta q_band)).
rewrite kernel_evaluateE // => -[].
rewrite evaluate_sho_critical ?q_band_close // /alag /=.
have -> : Rabs (0 - PI / eta q_band) = PI / eta q_band.
  rewrite Rabs_minus_sym Rminus_0_r Rabs_pos_eq //; apply: Rlt_le; apply: Rdiv_lt_0_compat => //.
  exact: PI_RGT_0.
rewrite /cov_sho_critical /cov_sho_under.
have -> : eta q_band * 1 * (PI / eta q_band) = PI by field; lra.
rewrite cos_PI sin_PI.
have h : 0 < PI / eta q_band by apply: Rdiv_lt_0_compat => //; exact: PI_RGT_0.
move: (PI / _) h => x x0 e.
have e1 := exp_pos (- (1) * x); have e2 := exp_pos (- (1) * x / (2 * q_band)).
by nra.
Qed.

(** C46: process noise of the generic Matern. *)
Section C46.
Variables (scale sigma : R).
Hypotheses (scale0 : 0 < scale) (sigma0 : sigma <> 0).

Lemma noise_of_lti m (G B : 'M[R]_(md m)) X1 X2 : lti G B -> 
  (forall dt, noise_exact_at m dt) ->
  mQ m X1 X2 = (mPinf m - mA m X1 X2 *m mPinf m *m (mA m X1 X2)^T)%R.
Proof. by move=> l h; rewrite (lt_Qlag l) h /exact_noise !(lt_A l) !lag0. Qed.

Lemma matern0_noise X1 X2 :
  mQ (matern_model 0 scale sigma) X1 X2 = mQ (exp_model scale sigma) X1 X2.
Proof.
rewrite (noise_of_lti X1 X2 (exp_lti scale0 sigma0)) => [|dt]; last by apply: exp_noise; lra.
by rewrite -matern0_P // -matern0_A.
Qed.
Lemma matern1_noise X1 X2 :
  mQ (matern_model 1 scale sigma) X1 X2 = mQ (matern32_model scale sigma) X1 X2.
Proof.
rewrite (noise_of_lti X1 X2 (m32_lti scale0 sigma0)) => [|dt]; last exact: m32_noise.
by rewrite -matern1_P // -matern1_A.
Qed.
Lemma matern2_noise X1 X2 :
  mQ (matern_model 2 scale sigma) X1 X2 = mQ (matern52_model scale sigma) X1 X2.
Proof.
rewrite (noise_of_lti X1 X2 (m52_lti scale0 sigma0)) => [|dt]; last exact: m52_noise.
by rewrite -matern2_P // -matern2_A.
Qed.
End C46.

(** Concrete kernels used in examples. *)
Definition k_example : kernel :=
  Sum (Product (SHO 2 3 1 "rot") (Matern32 2 1 "m")) (Sum (Exp 1 2 "e") (Scale 3 (Cosine 1 1 "c") "s")).
Lemma k_example_wf : wf_kernel k_example.
Proof. rewrite /=; repeat split; lra. Qed.
Lemma k_example_sharp : sharp_kernel k_example.
Proof.
rewrite /=; repeat split; left; apply/negP => /RlebP.
by rewrite !Rabs_pos_eq; lra.
Qed.
Lemma k_example_documented : documented k_example.
Proof.
rewrite /=; repeat split; right; apply/negbTE/negP => /RlebP.
by rewrite !Rabs_pos_eq; lra.
Qed.
(** ... whose process noise over the lag flush_dt has no small entries. *)
Definition k_kept : kernel := Sum (SHO 1 1 1 "a") (Product (Matern52 2 1 "m") (Exp 1 2 "e")).
Lemma k_kept_wf : wf_kernel k_kept.
Proof. rewrite /=; repeat split; lra. Qed.
Lemma k_kept_noise : noise_kept (flush_dt 1) k_kept.
Proof.
split; last by [].
move=> _ _ i j; right.
have w0 : 0 < 1 by lra. have [e1 e2] := ex_bound w0.
have r01 := raw01 1 w0; have r00 := raw00 1 w0.
have r10 : sho_Q_underdamped_raw 1 1 1 (flush_dt 1) 1%R 0%R = sho_Q_underdamped_raw 1 1 1 (flush_dt 1) 0%R 1%R.
  by rewrite /sho_Q_underdamped_raw !mxE.
have r11 : sho_Q_underdamped_raw 1 1 1 (flush_dt 1) 1%R 1%R = 1 - exp (- (1 * flush_dt 1 / 1)) * (5 / 3).
  rewrite /sho_Q_underdamped_raw !mxE /= (xE w0).
  have -> : sin (2 * (PI / 2)) = 0 by rewrite (_ : 2 * (PI / 2) = PI); [exact: sin_PI | field].
  have := n_sq; have := n_pos; move: (sho_eta 1) => n np n2.
  rewrite sin_PI2 /sq n2 /expm1; toR; field; lra.
have o2 (a : 'I_2) : a = 0%R \/ a = 1%R by ordcase a; [left | right]; apply/val_inj.
by case: (o2 i) => ->; case: (o2 j) => ->; rewrite ?r10 ?r11 ?r00 ?r01 /sq Rabs_pos_eq; lra.
Qed.

(** Statements used in Props. *)
Lemma constant_raises : exists k X1 X2,
  wf_kernel k /\ kernel_transition false k X1 X2 = inl AttributeError.
Proof. by exists (Constant 1 "Constant"), (CT 0), (CT 1); split=> //=; lra. Qed.

Lemma sho_band_refuted : exists k, wf_kernel k /\
  ~ (forall X1 X2 A, kernel_transition false k X1 X2 = inr A ->
       A = expm ((coord_to_sortable X2 - coord_to_sortable X1)%R *: mF (denote k))%R).
Proof.
exists (SHO 1 q_band 1 "SHO"); split; first by rewrite /= /q_band; repeat split; lra.
by move=> h; apply: sho_band_not_expm => X1 X2; apply: h.
Qed.

Lemma flush_dt_ge0 : 0 <= flush_dt 1.
Proof.
have [n1 n2] := n_bound; have := PI_RGT_0 => p.
by rewrite /flush_dt; apply: Rlt_le; apply: Rdiv_lt_0_compat; nra.
Qed.

Lemma flush_refuted : exists k X1 X2 A, wf_kernel k /\ sharp_kernel k /\
  kernel_transition false k X1 X2 = inr A /\
  mQ (denote k) X1 X2 <> (mPinf (denote k) - A *m mPinf (denote k) *m A^T)%R.
Proof.
exists (SHO 1 1 flush_sigma "SHO"), (CT 0), (CT (flush_dt 1)).
eexists; split; first by rewrite /= /flush_sigma; repeat split; lra.
split; first by left; exact: q1_under.
split; first by [].
move=> e; have [h1 h2] := flush_kernel_noise.
have {}e : mQ (sho_model 1 1 flush_sigma) (CT 0) (CT (flush_dt 1)) 0%R 1%R
  = exact_noise (sho_model 1 1 flush_sigma) (CT 0) (CT (flush_dt 1)) 0%R 1%R by rewrite /exact_noise -e.
by move: h2; rewrite -e h1; apply: Rgt_irrefl.
Qed.

Lemma scale_noise_refuted : exists a k X1 X2 A, wf_kernel (Scale a k "Scale") /\
  kernel_transition false (Scale a k "Scale") X1 X2 = inr A /\
  let m := denote (Scale a k "Scale") in
  mQ m X1 X2 <> (mPinf m - A *m mPinf m *m A^T)%R.
Proof.
exists 4, (Exp 1 1 "Exp"), (CT 0), (CT 1); eexists; split; first by rewrite /=; lra.
by split; [by [] | exact: scale_noise_wrong].
Qed.

Lemma stationary_sde k : wf_kernel k -> declares_lyapunov k ->
  let m := denote k in
  (mF m *m mPinf m + mPinf m *m (mF m)^T + mL m *m mQc m *m (mL m)^T = 0)%R /\
  pdmx (mPinf m).
Proof. by move=> w d; split; [exact: kernel_lyap | exact: kernel_pinf_pd]. Qed.

Lemma flush_psd_refuted : exists k X1 X2, wf_kernel k /\ sharp_kernel k /\
  0 <= lag X1 X2 /\ ~ psdmx (mQ (denote k) X1 X2).
Proof.
exists (SHO 1000 1 indef_sigma "SHO"), (CT 0), (CT (flush_dt 1000)).
split.
  have h : 0 < indef_sigma by apply: sqrt_lt_R0; lra.
  by rewrite /=; repeat split; lra.
split; first by left; exact: q1_under.
split; last exact: flush_not_psd.
rewrite lag0 /flush_dt; have [n1 n2] := n_bound; have := PI_RGT_0 => p.
by apply: Rlt_le; apply: Rdiv_lt_0_compat; nra.
Qed.

Lemma evaluate_variances l w q s n X : 0 < l -> 0 < w -> 0 < q -> s <> 0 ->
  q = 1 / 2 \/ allclose q (1 / 2) = false ->
  kernel_evaluate false (Exp l s n) X X = inr (s ^ 2) /\
  kernel_evaluate false (Matern32 l s n) X X = inr (s ^ 2) /\
  kernel_evaluate false (Matern52 l s n) X X = inr (s ^ 2) /\
  kernel_evaluate false (Cosine l s n) X X = inr (s ^ 2) /\
  kernel_evaluate false (SHO w q s n) X X = inr (s ^ 2).
Proof.
move=> l0 w0 q0 s0 hq.
have z : alag X X = 0 by rewrite /alag Rminus_diag_eq // Rabs_R0.
rewrite !kernel_evaluateE // ![evaluate (denote _) _ _]evaluate_covariance // z sho_covariance0.
rewrite /= /cov_exp /cov_matern32 /cov_matern52 /cov_cosine /Rdiv.
rewrite !(Ropp_0, Rmult_0_l, Rmult_0_r, pow_i) // ?exp_0 ?cos_0; last by lia.
by repeat split; congr inr; ring.
Qed.

Lemma sho_docstring_refuted : exists w q s X1 X2, 0 < w /\ 1 / 2 < q /\ 0 < s /\
  kernel_evaluate false (SHO w q s "SHO") X1 X2
  <> inr (cov_sho_under_docstring w q s (Rabs (coord_to_sortable X1 - coord_to_sortable X2))).
Proof.
exists 1, 1, 1, (CT 0), (CT 0); rewrite /= Rminus_0_r Rabs_R0.
repeat split; try lra; exact: sho_docstring_wrong.
Qed.

Lemma sho_band_value_refuted : exists w q s X1 X2, 0 < w /\ 1 / 2 < q /\ 0 < s /\
  kernel_evaluate false (SHO w q s "SHO") X1 X2
  <> inr (cov_sho_under w q s (Rabs (coord_to_sortable X1 - coord_to_sortable X2))).
Proof.
have [X1 [X2 h]] := sho_band_wrong; exists 1, q_band, 1, X1, X2.
by rewrite /q_band; repeat split; try lra; exact: h.
Qed.

Lemma custom_asymmetric_refuted : exists k X1 X2, wf_kernel k /\ sharp_kernel k /\
  kernel_evaluate false k X1 X2 <> kernel_evaluate false k X2 X1.
Proof.
exists (Custom tv_model "tv"), (CT 0), (CT 1); split; first by do 2 eexists; exact: tv_lti.
split; first exact: tv_lti.
by rewrite !kernel_evaluateE // => -[]; exact: tv_asym.
Qed.

Lemma kernel_gram_psd k (xs : seq coord) (kern : coord -> coord -> R) :
  wf_kernel k -> const_obs k ->
  (forall X1 X2, kernel_evaluate false k X1 X2 = inr (kern X1 X2)) ->
  psdmx (gram (CT 0) kern xs).
Proof.
move=> w c h; have := evaluate_gram_psd xs w c; congr psdmx.
by apply/matrixP => i j; rewrite !mxE; have [_ ->] := kernel_evaluate_inr (h (nth (CT 0) xs i) (nth (CT 0) xs j)).
Qed.

Lemma kernel_evaluate_fun k : no_constant k ->
  exists kern, forall X1 X2, kernel_evaluate false k X1 X2 = inr (kern X1 X2).
Proof. by move=> h; exists (evaluate (denote k)) => X1 X2; rewrite kernel_evaluateE ?no_constant_raises. Qed.

Lemma evaluate_sum_product py k1 k2 X1 X2 v1 v2 :
  kernel_evaluate py k1 X1 X2 = inr v1 -> kernel_evaluate py k2 X1 X2 = inr v2 ->
  kernel_evaluate py (kernel_add k1 k2) X1 X2 = inr (v1 + v2) /\
  kernel_evaluate py (kernel_mul k1 k2) X1 X2 = inr (v1 * v2).
Proof.
move=> /kernel_evaluate_inr [e1 ->] /kernel_evaluate_inr [e2 ->].
rewrite !kernel_evaluateE /= ?e1 ?e2 //.
by rewrite evaluate_sum evaluate_product.
Qed.

Lemma evaluate_raises py k1 k2 X1 X2 e :
  (kernel_evaluate py (kernel_add k1 k2) X1 X2 = inl e <->
   kernel_evaluate py k1 X1 X2 = inl e \/
   (exists v, kernel_evaluate py k1 X1 X2 = inr v) /\ kernel_evaluate py k2 X1 X2 = inl e) /\
  (kernel_evaluate py (kernel_mul k1 k2) X1 X2 = inl e <->
   kernel_evaluate py k1 X1 X2 = inl e \/
   (exists v, kernel_evaluate py k1 X1 X2 = inr v) /\ kernel_evaluate py k2 X1 X2 = inl e).
Proof.
have c k : kernel_evaluate py k X1 X2 =
    match transition_raises py k with Some e => inl e | None => inr (evaluate (denote k) X1 X2) end.
  by case h : (transition_raises py k) => [x|]; [apply: kernel_evaluate_err | apply: kernel_evaluateE].
rewrite !c /=; case: (transition_raises py k1) => [x1|]; case: (transition_raises py k2) => [x2|];
  split; (split=> [h|[h|[[v h1] h2]]]); auto; try discriminate;
  by right; split=> //; eexists.
Qed.

Lemma contract_closed m1 m2 dt : declared_lti m1 -> declared_lti m2 ->
  noise_exact_at m1 dt -> noise_exact_at m2 dt ->
  declared_lti (sum_model m1 m2) /\ noise_exact_at (sum_model m1 m2) dt /\
  declared_lti (product_model m1 m2) /\ noise_exact_at (product_model m1 m2) dt.
Proof.
move=> h1 h2 n1 n2; split; first exact: declared_sum. split; first exact: noise_sum.
by split; [exact: declared_product | exact: noise_product].
Qed.

Lemma contract_example :
  (exists v, kernel_evaluate false k_example (CT 0) (CT 3) = inr v) /\
  declared_lti (matern52_model 2 1) /\ (forall dt, noise_exact_at (matern52_model 2 1) dt).
Proof.
split; first by apply: kernel_evaluate_defined; repeat split.
by split; [apply: m52_lti; lra | move=> dt; exact: m52_noise].
Qed.

Lemma kernel_evaluate_scale py a k n X1 X2 v :
  kernel_evaluate py k X1 X2 = inr v ->
  kernel_evaluate py (Scale a k n) X1 X2 = inr (a * v).
Proof.
move=> /kernel_evaluate_inr [e ->]; rewrite kernel_evaluateE //=.
by rewrite evaluate_scale.
Qed.

Lemma matern0_agrees scale sigma : 0 < scale -> sigma <> 0 ->
  let m := denote (Matern 0 scale sigma) in
  let m' := denote (Exp scale sigma "") in
  mF m = mF m' /\ mL m = mL m' /\ mQc m = mQc m' /\ mPinf m = mPinf m' /\
  (forall X, mH m X = mH m' X) /\
  (forall X1 X2, mA m X1 X2 = mA m' X1 X2 /\ mQ m X1 X2 = mQ m' X1 X2 /\
     kernel_evaluate false (Matern 0 scale sigma) X1 X2
     = kernel_evaluate false (Exp scale sigma "") X1 X2).
Proof.
move=> l0 s0 m m'.
split; first exact: matern0_F. split; first exact: matern0_L.
split; first exact: matern0_Q. split; first exact: matern0_P.
split; first exact: matern0_H.
move=> X1 X2; split; first exact: matern0_A. split; first exact: matern0_noise.
by rewrite !kernel_evaluateE // matern0_eval.
Qed.

Lemma matern1_agrees scale sigma : 0 < scale -> sigma <> 0 ->
  let m := denote (Matern 1 scale sigma) in
  let m' := denote (Matern32 scale sigma "") in
  mF m = mF m' /\ mL m = mL m' /\ mQc m = mQc m' /\ mPinf m = mPinf m' /\
  (forall X, mH m X = mH m' X) /\
  (forall X1 X2, mA m X1 X2 = mA m' X1 X2 /\ mQ m X1 X2 = mQ m' X1 X2 /\
     kernel_evaluate false (Matern 1 scale sigma) X1 X2
     = kernel_evaluate false (Matern32 scale sigma "") X1 X2).
Proof.
move=> l0 s0 m m'.
split; first exact: matern1_F. split; first exact: matern1_L.
split; first exact: matern1_Q. split; first exact: matern1_P.
split; first exact: matern1_H.
move=> X1 X2; split; first exact: matern1_A. split; first exact: matern1_noise.
by rewrite !kernel_evaluateE // matern1_eval.
Qed.

Lemma matern2_agrees scale sigma : 0 < scale -> sigma <> 0 ->
  let m := denote (Matern 2 scale sigma) in
  let m' := denote (Matern52 scale sigma "") in
  mF m = mF m' /\ mL m = mL m' /\ mQc m = mQc m' /\ mPinf m = mPinf m' /\
  (forall X, mH m X = mH m' X) /\
  (forall X1 X2, mA m X1 X2 = mA m' X1 X2 /\ mQ m X1 X2 = mQ m' X1 X2 /\
     kernel_evaluate false (Matern 2 scale sigma) X1 X2
     = kernel_evaluate false (Matern52 scale sigma "") X1 X2).
Proof.
move=> l0 s0 m m'.
split; first exact: matern2_F. split; first exact: matern2_L.
split; first exact: matern2_Q. split; first exact: matern2_P.
split; first exact: matern2_H.
move=> X1 X2; split; first exact: matern2_A. split; first exact: matern2_noise.
by rewrite !kernel_evaluateE // matern2_eval.
Qed.
