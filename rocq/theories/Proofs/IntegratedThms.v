(** Transition and process noise of the integrated kernels (C29). *)
From Coq Require Import Reals Lra String.
From mathcomp Require Import all_ssreflect all_algebra.
From Coquelicot Require Import Coquelicot.
From Verif.Prelude Require Import Rstruct Zmod Psd MxCalc.
From Verif.Spec Require Import Expm Integral JointProcess Lti WfKernel WfIntegrated.
From Verif.Model Require Import Array Helpers BaseKernels IntegratedKernels Kernel.
From Verif.Proofs Require Import Expm MxInt VanLoan VanLoanThms Lti Leaves LeafLti ShoLti KernelLti
  KernelProps KernelThms Joint IntSho.
Set Implicit Arguments.
Unset Strict Implicit.
Unset Printing Implicit Defensive.
Import GRing.Theory.
Local Open Scope ring_scope.

Lemma unit_rows_const d n m (A : 'M[R]_(d, m)) :
  unit_rows d n *m A = \matrix_(i, j) (unit_rows d 1 *m A) 0 j.
Proof. by apply/matrixP=> i j; rewrite !mxE; apply: eq_bigr => k _; rewrite !mxE. Qed.

Lemma mxint_mulr m n p (f g : R -> 'M[R]_(m, n)) (C : 'M[R]_(n, p)) t :
  (forall x, mxd f x (g x)) -> mxint f R0 t *m C = mxint (fun s => f s *m C) R0 t.
Proof.
move=> h; have h1 x := mxd_mulr C (mxint_der R0 x (mxd_mxc h)).
rewrite (mxintE R0 t h1); last by apply: mxd_mxc (fun x => mxd_mulr C (h x)).
by rewrite mxint0 mul0mx subr0.
Qed.
Lemma mxint_mull m n p (f g : R -> 'M[R]_(m, n)) (C : 'M[R]_(p, m)) t :
  (forall x, mxd f x (g x)) -> C *m mxint f R0 t = mxint (fun s => C *m f s) R0 t.
Proof.
move=> h; have h1 x := mxd_mull C (mxint_der R0 x (mxd_mxc h)).
rewrite (mxintE R0 t h1); last by apply: mxd_mxc (fun x => mxd_mull C (h x)).
by rewrite mxint0 mulmx0 subr0.
Qed.

Section Model.
Variables (b : model) (n : nat).
Variable Phibar : R -> R -> 'M[R]_(md b).
Variable Qaug12 : R -> R -> 'M[R]_(md b, 1).
Variable Qaug22 : R -> R -> R.
Let m := @integrated_model b n Phibar Qaug12 Qaug22.
Let W := mL b *m mQc b *m (mL b)^T.
Hypothesis hb : declared_lti b.

Lemma declared_W : W^T = W.
Proof. by case: (lt_B hb). Qed.

Lemma joint_blocks_A X1 X2 X :
  mH b X = unit_rows (md b) 1 ->
  first_row (Phibar (coord_to_sortable X1) (coord_to_sortable X2))
    = first_row (Phibar_from_VanLoan (mF b) (lag X1 X2)) ->
  mA m X1 X2 = expm (lag X1 X2 *: mF m) /\
  mA m X1 X2 = joint_transition n (mF b) (mH b X) (lag X1 X2).
Proof.
move=> hH hP; have hA : mA m X1 X2 = expm (lag X1 X2 *: mF m).
  by apply: integrated_A hP; rewrite (lt_A hb).
split=> //; rewrite hA joint_expm /joint_transition hH unit_rows_const.
by rewrite pb_int.
Qed.

Lemma joint_blocks_Q X1 X2 X :
  noise_exact_at b (lag X1 X2) ->
  mH b X = unit_rows (md b) 1 ->
  Qaug12 (coord_to_sortable X1) (coord_to_sortable X2) = default_Qaug12 b R0 (lag X1 X2) ->
  Qaug22 (coord_to_sortable X1) (coord_to_sortable X2) = default_Qaug22 b R0 (lag X1 X2) ->
  mQ m X1 X2 = Q_from_VanLoan (mF m) (mL m) (mQc m) (lag X1 X2) /\
  mQ m X1 X2 = joint_process_noise n (mF b) W (mH b X) (lag X1 X2).
Proof.
move=> nk hH h12 h22.
have hQ0 : mQ b (CT R0) (CT (lag X1 X2)) = Q_from_VanLoan (mF b) (mL b) (mQc b) (lag X1 X2).
  rewrite nk /exact_noise (Q_lyap _ (lt_lyap hb)) (lt_A hb).
  by have -> : lag (CT R0) (CT (lag X1 X2)) = lag X1 X2 by rewrite lag0.
have hQ := @integrated_Q b n Phibar Qaug12 Qaug22 declared_W X1 X2 hQ0 h12 h22.
split=> //; rewrite hQ (joint_noise n (mF b) declared_W) /joint_process_noise hH.
rewrite -/W; move: (lag X1 X2) => t.
have pbE s : mxint (fun s => expm (s *: mF b)) R0 s = Phibar_from_VanLoan (mF b) s by rewrite pb_int.
set u1 := unit_rows (md b) 1.
have dM := Md_der (mF b) (mL b) (mQc b).
have eM : mxint (fun s => expm (s *: mF b) *m W
    *m (u1 *m mxint (fun s => expm (s *: mF b)) R0 s)^T) R0 t
  = (vl_F3 (mF b) (mL b) (mQc b) t)^T *m vl_H2 (mF b) (mL b) (mQc b) t *m u1^T.
  rewrite M_int (mxint_mulr _ _ dM); apply: mxint_ext => s.
  by rewrite pbE trmx_mul !mulmxA.
have eV : mxint (fun s => u1 *m mxint (fun s => expm (s *: mF b)) R0 s *m W
    *m (u1 *m mxint (fun s => expm (s *: mF b)) R0 s)^T) R0 t
  = u1 *m ((vl_F3 (mF b) (mL b) (mQc b) t)^T *m vl_K1 (mF b) (mL b) (mQc b) t
      + ((vl_F3 (mF b) (mL b) (mQc b) t)^T *m vl_K1 (mF b) (mL b) (mQc b) t)^T) *m u1^T.
  rewrite (V_int (mF b) declared_W) -/W.
  have dV x := mxd_mul (mxd_mulr W (pb_der (mF b) x)) (mxd_tr (pb_der (mF b) x)).
  rewrite (mxint_mull _ _ dV) (mxint_mulr _ _ (fun x => mxd_mull u1 (dV x))).
  by apply: mxint_ext => s; rewrite !pbE trmx_mul !mulmxA.
rewrite eM eV Q_int -/W; congr (block_mx _ _ _ _).
- by rewrite -cols_first; apply/matrixP=> i j; rewrite -cols_first !mxE.
- by rewrite -cols_first_tr; apply/matrixP=> i j; rewrite -cols_first !mxE.
- by rewrite -!const_first; apply/matrixP=> i j; rewrite !mxE.
Qed.
End Model.

Lemma unit_rows2 (a : R) : a = R1 -> mat 1 2 [:: [:: a; R0]] = unit_rows 2 1.
Proof. by move=> ->; mxeq. Qed.
Lemma leaf_H k b n X : integrated_of k = Some (b, n) -> mH (denote b) X = unit_rows (md (denote b)) 1.
Proof. by case: k => // [w q s|l s|l s|l s|l s] m name [<- _] /=; mxeq. Qed.

Lemma sub0 (t s : R) : Rminus (Rminus t s) R0 = Rminus t s. Proof. lra. Qed.
Lemma default12_0 b t s : default_Qaug12 b s t = default_Qaug12 b R0 (Rminus t s).
Proof. by rewrite /default_Qaug12; congr (first_col _); have -> : t - s = Rminus t s - R0 by toR; lra. Qed.
Lemma default22_0 b t s : default_Qaug22 b s t = default_Qaug22 b R0 (Rminus t s).
Proof. by rewrite /default_Qaug22; congr (first_entry _); have -> : t - s = Rminus t s - R0 by toR; lra. Qed.

Lemma first_row_VL b X1 X2 :
  first_row (default_Phibar b (coord_to_sortable X1) (coord_to_sortable X2))
  = first_row (Phibar_from_VanLoan (mF b) (lag X1 X2)).
Proof. by []. Qed.

Lemma default_A b n X1 X2 X : declared_lti b -> mH b X = unit_rows (md b) 1 ->
  let m := integrated_default b n in
  mA m X1 X2 = expm (lag X1 X2 *: mF m) /\
  exists e : md m = (md b + n)%N,
    castmx (e, e) (mA m X1 X2) = joint_transition n (mF b) (mH b X) (lag X1 X2).
Proof.
move=> dl hH m.
have [h1 h2] := @joint_blocks_A b n (default_Phibar b) (default_Qaug12 b) (default_Qaug22 b)
  dl X1 X2 X hH (first_row_VL b X1 X2).
by split=> //; exists erefl; rewrite castmx_id.
Qed.
Lemma default_Q b n X1 X2 X : declared_lti b -> mH b X = unit_rows (md b) 1 ->
  noise_exact_at b (lag X1 X2) ->
  let m := integrated_default b n in
  mQ m X1 X2 = Q_from_VanLoan (mF m) (mL m) (mQc m) (lag X1 X2) /\
  exists e : md m = (md b + n)%N,
    castmx (e, e) (mQ m X1 X2) = joint_process_noise n (mF b) (mL b *m mQc b *m (mL b)^T)
      (mH b X) (lag X1 X2).
Proof.
move=> dl hH ne m.
have [h1 h2] := @joint_blocks_Q b n (default_Phibar b) (default_Qaug12 b) (default_Qaug22 b)
  dl X1 X2 X ne hH (default12_0 _ _ _) (default22_0 _ _ _).
by split=> //; exists erefl; rewrite castmx_id.
Qed.

Lemma int_transition py k b n X1 X2 X A : integrated_of k = Some (b, n) ->
  wf_kernel b -> sharp_kernel b -> kernel_transition py k X1 X2 = inr A ->
  A = expm (lag X1 X2 *: mF (denote k)) /\
  exists e : md (denote k) = (md (denote b) + n)%N,
    castmx (e, e) A = joint_transition n (mF (denote b)) (mH (denote b) X) (lag X1 X2).
Proof.
move=> ik wf sk /kernel_transition_inr [_ ->] {A}.
have hH := leaf_H X ik; have dl := kernel_declared wf sk.
case: k ik => // [w q s|l s|l s|l s|l s] m name [eb en]; subst b n.
- have h := @joint_blocks_A (sho_model w q s) m (isho_Phibar w q s) (isho_Q12 w q s) (isho_Q22 w q s) dl X1 X2 X hH _.
  have [] := h.
    rewrite /isho_Phibar; case: ifP => E; first by [].
    case: RltbP => h2 //; rewrite isho_pbE //; first by case: wf.
  by move=> h1 h2; split=> //; exists erefl; rewrite castmx_id.
- exact: (@default_A (exp_model l s)).
- exact: (@default_A (matern32_model l s)).
- exact: (@default_A (matern52_model l s)).
- exact: (@default_A (cosine_model l s)).
Qed.

Lemma int_noise k b n X1 X2 X : integrated_of k = Some (b, n) ->
  wf_kernel b -> sharp_kernel b -> Rle R0 (lag X1 X2) ->
  noise_kept (lag X1 X2) b -> integral_noise_kept (lag X1 X2) k ->
  mQ (denote k) X1 X2 = Q_from_VanLoan (mF (denote k)) (mL (denote k)) (mQc (denote k)) (lag X1 X2) /\
  exists e : md (denote k) = (md (denote b) + n)%N,
    castmx (e, e) (mQ (denote k) X1 X2)
    = joint_process_noise n (mF (denote b))
        (mL (denote b) *m mQc (denote b) *m (mL (denote b))^T)
        (mH (denote b) X) (lag X1 X2).
Proof.
move=> ik wf sk l0 nk ink.
have hH := leaf_H X ik; have dl := kernel_declared wf sk; have ne := kernel_noise wf nk.
case: k ik ink => // [w q s|l s|l s|l s|l s] m name [eb en] ink; subst b n.
- have h := @joint_blocks_Q (sho_model w q s) m (isho_Phibar w q s) (isho_Q12 w q s) (isho_Q22 w q s) dl X1 X2 X ne hH _ _.
  have [] := h; last by move=> h1 h2; split=> //; exists erefl; rewrite castmx_id.
  + rewrite /isho_Q12; case: ifP => E; first by [].
    case: RltbP => h2 //.
    have [k1 k2] := ink h2 (negbT E).
    rewrite -isho_Q12E //; last by case: wf.
    by apply/matrixP=> i j; rewrite mxE; apply: flush_id; apply: k1.
  + rewrite /isho_Q22; case: ifP => E; first by [].
    case: RltbP => h2 //.
    have [k1 k2] := ink h2 (negbT E).
    rewrite -isho_Q22_rawE //; last by case: wf.
    by apply: flush_id; apply: k2.
- exact: (@default_Q (exp_model l s)).
- exact: (@default_Q (matern32_model l s)).
- exact: (@default_Q (matern52_model l s)).
- exact: (@default_Q (cosine_model l s)).
Qed.

(** The analytic blocks of IntegratedSHO. *)
Lemma isho_analytic w q sigma dt : Rlt R0 w -> Rlt (Rdiv R1 (IZR 2)) q ->
  let b := sho_model w q sigma in
  [/\ isho_Phibar_underdamped w q dt = default_Phibar b R0 dt,
      isho_Q12_raw w q sigma dt = default_Qaug12 b R0 dt &
      Rle R0 dt -> isho_Q22_raw w q sigma dt = default_Qaug22 b R0 dt].
Proof.
move=> w0 qh b; split.
- rewrite isho_pbE // /default_Phibar.
  by congr (Phibar_from_VanLoan _ _); toR; lra.
- exact: isho_Q12E.
- exact: isho_Q22_rawE.
Qed.

(** An underdamped example over the lag dt = pi / eta. *)
Definition k_isho : kernel := IntegratedSHO 1 1 1 2 "i".
Definition isho_dt : R := Rdiv PI (sho_eta R1).
Section Example.
Local Open Scope R_scope.
Let n := sho_eta 1.
Let dt := isho_dt.
Lemma isho_arg : n * 1 * dt = PI.
Proof. by have := n_pos; rewrite /dt /isho_dt -/n => h; field; lra. Qed.
Lemma isho_dt_gt : 3 < dt.
Proof.
have [n1 n2] := n_bound; have h := PI2_3_2; rewrite /dt /isho_dt -/n.
have np : 0 < n by apply: n_pos.
have e : PI / n * n = PI by field; lra.
move: e; move: (PI / n) => p e; rewrite -/n in n1 n2.
case: (Rle_dec p 3) => hp; last by lra.
by have := Rmult_le_compat_r n p 3 (Rlt_le _ _ np) hp; lra.
Qed.
Lemma isho_sin : sin (n * 1 * dt) = 0 /\ cos (n * 1 * dt) = -1.
Proof. by rewrite isho_arg sin_PI cos_PI. Qed.
Lemma isho_sin2 : sin (2 * (n * 1 * dt)) = 0 /\ cos (2 * (n * 1 * dt)) = 1.
Proof. by rewrite isho_arg sin_2PI cos_2PI. Qed.
Lemma isho_ex : 0 < exp (- (1 / 2) * 1 / 1 * dt) < 1 / 2.
Proof.
split; first exact: exp_pos.
have h : exp (- (1 / 2) * 1 / 1 * dt) < exp (- (1)).
  by apply: exp_increasing; have := isho_dt_gt; lra.
have e2 : 2 < exp 1 by have := exp_ineq1 1; lra.
move: h; rewrite (exp_Ropp 1); have : / exp 1 < / 2 by apply: Rinv_lt_contravar; lra.
lra.
Qed.
Lemma isho_nn : n * n = 3 / 4. Proof. exact: n_sq. Qed.

Lemma k_isho_kept : integral_noise_kept isho_dt k_isho.
Proof.
rewrite /k_isho /= => _ _.
have [s1 c1] := isho_sin; have [s2 c2] := isho_sin2; have [x0 x1] := isho_ex; have g := isho_dt_gt.
split.
  move=> i j; right; rewrite !ord1 /isho_Q12_raw /expm1 -/n s1 c1 s2 exp_double.
  move: x0 x1; move: (exp _) => x x0 x1.
  rewrite /smul !mxE /sq; toR.
  have o2 (a : 'I_2) : a = 0%R \/ a = 1%R by ordcase a; [left | right]; apply/val_inj.
  case: (o2 i) => -> /=; toR.
    rewrite Rabs_pos_eq; last by nra.
    nra.
  rewrite Rabs_left1; nra.
right; rewrite /isho_Q22_raw /isho_iQ22 -/n s1 c1 s2 c2 exp_double.
move: x0 x1; move: (exp _) => x x0 x1.
have np : 0 < n by apply: n_pos.
have A2 : sq (1 / (2 * n * 1)) = 1 / 3.
  rewrite /sq; apply: (Rmult_eq_reg_r (n * n)); last by rewrite isho_nn; lra.
  by rewrite {2}isho_nn; field; lra.
rewrite A2 /sq.
set v := 1 / (4 * (1 * 1) * (1 * 1)) * _.
have vE : v = 2 * dt - 2 - 2 * (x * x) - 4 * x by rewrite /v /dt; field; lra.
have v1 : 1 <= v by rewrite vE -/dt; nra.
rewrite Rmax_left; last by lra.
rewrite Rabs_pos_eq; lra.
Qed.
Lemma k_isho_base_kept : noise_kept isho_dt (SHO 1 1 1 "i").
Proof.
rewrite /= => _ _ i j.
have [s1 c1] := isho_sin; have [s2 c2] := isho_sin2; have [x0 x1] := isho_ex; have g := isho_dt_gt.
have e : exp (- (1 * isho_dt / 1)) = exp (- (1 / 2) * 1 / 1 * dt) * exp (- (1 / 2) * 1 / 1 * dt).
  by rewrite -exp_plus; congr exp; rewrite /dt; field.
rewrite /sho_Q_underdamped_raw /expm1 -/n s1 s2 e.
move: x0 x1; move: (exp (- (1 / 2) * 1 / 1 * dt)) => x x0 x1.
have o2 (a : 'I_2) : a = 0%R \/ a = 1%R by ordcase a; [left | right]; apply/val_inj.
case: (o2 i) => ->; case: (o2 j) => ->; rewrite /smul !mxE /= /sq; toR.
- by right; rewrite Rabs_pos_eq; nra.
- by left; nra.
- by left; nra.
- by right; rewrite Rabs_pos_eq; nra.
Qed.
End Example.
Lemma k_isho_ex : integrated_of k_isho = Some (SHO 1 1 1 "i", 2%N) /\
  wf_kernel (SHO 1 1 1 "i") /\ sharp_kernel (SHO 1 1 1 "i") /\
  Rle R0 (lag (CT R0) (CT isho_dt)) /\
  noise_kept (lag (CT R0) (CT isho_dt)) (SHO 1 1 1 "i") /\
  integral_noise_kept (lag (CT R0) (CT isho_dt)) k_isho.
Proof.
rewrite lag0; repeat split.
- rewrite /=; toR; lra.
- rewrite /=; toR; lra.
- rewrite /=; toR; lra.
- by left; exact: q1_under.
- by have := isho_dt_gt; lra.
- exact: k_isho_base_kept.
- by case: k_isho_kept.
- by case: k_isho_kept.
Qed.

Lemma int_flush_refuted : exists k b n X1 X2, integrated_of k = Some (b, n) /\ wf_kernel b /\
  sharp_kernel b /\ Rle R0 (lag X1 X2) /\
  mQ (denote k) X1 X2 <> Q_from_VanLoan (mF (denote k)) (mL (denote k)) (mQc (denote k)) (lag X1 X2).
Proof.
exists (IntegratedSHO 1 1 flush_sigma 1 "i"), (SHO 1 1 flush_sigma "i"), 1%N, (CT R0), (CT (flush_dt R1)).
split=> //; split; first by rewrite /= /flush_sigma; repeat split; lra.
split; first by left; exact: q1_under.
split; first by rewrite lag0; exact: flush_dt_ge0.
move=> e; have [h1 h2] := flush_kernel_noise.
have dl : declared_lti (sho_model R1 R1 flush_sigma).
  by apply: sho_declared; [lra | lra | rewrite /flush_sigma; lra | left; exact: q1_under].
have {}e := congr1 (@ulsubmx _ 2 1 2 1) e.
rewrite (joint_noise 1 _ (declared_W dl)) !block_mxKul in e.
rewrite (Q_lyap _ (lt_lyap dl)) in e.
have {}e := congr1 (fun M : 'M[R]_2 => M 0 1) e.
have e1 : mQ (sho_model R1 R1 flush_sigma) (CT R0) (CT (flush_dt R1)) 0 1
  = exact_noise (sho_model R1 R1 flush_sigma) (CT R0) (CT (flush_dt R1)) 0 1.
  rewrite /exact_noise (lt_A dl); rewrite -e.
  by congr (mQ (sho_model R1 R1 flush_sigma) _ (CT _) 0 1); rewrite /=; toR; lra.
by move: h2; rewrite -e1 h1; apply: Rgt_irrefl.
Qed.
