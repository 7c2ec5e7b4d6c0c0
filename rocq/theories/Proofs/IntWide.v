(** The process noise of the integrated kernels reaches every component that a reset
    removes, so predicted covariances stay positive definite. *)
From Coq Require Import Reals Lra.
From mathcomp Require Import all_ssreflect all_algebra.
From Coquelicot Require Import Coquelicot.
From Verif.Prelude Require Import Rstruct Zmod Psd MxCalc.
From Verif.Spec Require Import Expm Integral Lti WfKernel WfIntegrated IntCov Smoothable.
From Verif.Model Require Import Array Helpers BaseKernels IntegratedKernels Kernel.
From Verif.Proofs Require Import Expm MxInt VanLoan Lti Leaves KernelLti Joint LagInt IntLeaf
  IntegratedThms WindowCov WindowKernel FitInt.
Set Implicit Arguments.
Unset Strict Implicit.
Unset Printing Implicit Defensive.
Import Order.TTheory GRing.Theory Num.Theory.
Local Open Scope ring_scope.

(** A function that vanishes to the right of x has derivative 0 at x. *)
Lemma der_right0 f x a l : der f x l -> Rlt x a ->
  (forall s, Rle x s -> Rlt s a -> f s = 0) -> l = 0.
Proof.
move=> /is_derive_Reals h xa hf.
case: (Req_dec l 0) => // nz; exfalso.
have e0 : Rlt 0 (Rabs l) by apply: Rabs_pos_lt.
have [[e he] hd] := h _ e0; rewrite /= in hd.
set r := Rdiv (Rmin e (Rminus a x)) 2.
have m0 : Rlt 0 (Rmin e (Rminus a x)) by apply: Rmin_pos; lra.
have m1 := Rmin_l e (Rminus a x); have m2 := Rmin_r e (Rminus a x).
have r0 : Rlt 0 r by rewrite /r; lra.
have re : Rlt r e by rewrite /r; lra.
have ra : Rlt (Rplus x r) a by rewrite /r; lra.
have := hd r (Rgt_not_eq _ _ r0); rewrite Rabs_pos_eq; last lra.
move=> /(_ re); rewrite !hf; [|lra|lra|lra|lra].
have -> : Rminus (Rdiv (Rminus 0 0) r) l = Ropp l by field; lra.
by rewrite Rabs_Ropp; lra.
Qed.

(** A sandwiched function vanishes. *)
Lemma der_zero_on f g a : (forall x, der f x (g x)) -> (forall x, Rle 0 x -> Rle 0 (g x)) ->
  f 0 = 0 -> f a = 0 -> forall s, Rle 0 s -> Rlt s a -> f s = 0.
Proof.
move=> hd hg f0 fa s s0 sa.
have h1 := der_ge0_le hd hg s0; rewrite f0 in h1.
have hd2 x : der (fun u => f (u + s)) x (g (x + s)) by apply: der_comp_shift.
have h2 := @der_ge0_le (fun u => f (u + s)) (fun u => g (u + s)) (Rminus a s) hd2.
have hg2 x : Rle 0 x -> Rle 0 (g (x + s)) by move=> x0; apply: hg; toR; lra.
have h3 : Rle 0 (Rminus a s) by lra.
have := h2 hg2 h3; rewrite add0r.
have -> : (Rminus a s + s)%R = a by toR; ring.
by rewrite fa => h4; apply: Rle_antisym.
Qed.

(** ** Which directions the noise leaves out *)
Section Noise.
Variables (n p : nat) (F : 'M[R]_n) (L : 'M[R]_(n, p)) (Qc : 'M[R]_p).
Hypothesis pQc : pdmx Qc.
Let D (s : R) := expm (s *: - F).
Let W := L *m Qc *m L^T.
Let Q := Q_from_VanLoan F L Qc.

Lemma D_der s : mxd D s (- (D s *m F)).
Proof. by apply: mxd_eq (E_der (- F) s) _; rewrite mulmxN. Qed.

Lemma back_noise s : mxd (fun s => D s *m Q s *m (D s)^T) s (D s *m W *m (D s)^T).
Proof.
have h := mxd_mul (mxd_mul (D_der s) (Q_der F L Qc s)) (mxd_tr (D_der s)).
apply: mxd_eq h _; rewrite -/W noise_ode -/W -/(Q s).
have -> : (- (D s *m F))^T = - (F^T *m (D s)^T).
  by rewrite -trmx_mul; apply/matrixP=> i j; rewrite !mxE.
rewrite ?mulmxN ?mulNmx; repeat (progress mxdist).
by rewrite ?mulNmx ?mulmxN ?mulmxA; zmod.
Qed.

Lemma noise_reach dt u : Rlt 0 dt -> qf (Q dt) ((D dt)^T *m u) = 0 ->
  forall j, u^T *m iter j (mulmx F) L = 0.
Proof.
move=> t0 h0.
have hd s : der (fun s => qf (D s *m Q s *m (D s)^T) u) s (qf (D s *m W *m (D s)^T) u).
  exact: (mxd_mulr u (mxd_mull u^T (back_noise s))) 0 0.
have pW : psdmx W by apply: psd_conj; apply: pd_psd.
have hg s : Rle 0 s -> Rle 0 (qf (D s *m W *m (D s)^T) u).
  by move=> _; apply/RleP; have [_] := psd_conj (D s) pW; apply.
have z s : Rle 0 s -> Rlt s dt -> qf (D s *m Q s *m (D s)^T) u = 0.
  apply: (der_zero_on hd hg).
    by rewrite /Q Q_0 mulmx0 mul0mx qf0l.
  by rewrite qf_conj.
have z1 s : Rle 0 s -> Rlt s dt -> L^T *m ((D s)^T *m u) = 0.
  move=> s0 st; have := der_right0 (hd s) st (fun r h1 h2 => z r (Rle_trans _ _ _ s0 h1) h2).
  by rewrite qf_conj /W qf_conj => /(pd_qf0 pQc).
have zj j s : Rle 0 s -> Rlt s dt -> u^T *m D s *m iter j (mulmx F) L = 0.
  elim: j s => [|j IH] s s0 st.
    have := congr1 trmx (z1 s s0 st).
    by rewrite !trmx_mul !trmxK trmx0.
  apply/matrixP=> i k; rewrite [RHS]mxE.
  have hj := mxd_mulr (iter j (mulmx F) L) (mxd_mull u^T (D_der s)) i k.
  have := der_right0 hj st _.
  have -> : u^T *m - (D s *m F) *m iter j (mulmx F) L = - (u^T *m D s *m iter j.+1 (mulmx F) L).
    by rewrite mulmxN mulNmx !mulmxA.
  rewrite [X in X = _]mxE => /(_ _)/eqP; rewrite oppr_eq0 => h; apply/eqP; apply: h.
  by move=> r h1 h2; rewrite IH ?mxE //; apply: Rle_trans h1.
move=> j; have := zj j 0 (Rle_refl _) t0.
by rewrite /D scale0r expm0 mulmx1.
Qed.
End Noise.

(** [wide]: invertible transitions, and over a positive time the noise gives variance to
    everything that a reset removes. *)
Record wide (m : model) (n : nat) (ok : R -> Prop) : Prop := Wide {
  wd_P : pdmx (mPinf m);
  wd_A : forall dt, mA m (CT R0) (CT dt) \in unitmx;
  wd_Q : forall s dt v, (s < n)%N -> Rlt 0 dt -> ok dt ->
    (mReset m s)^T *m ((mA m (CT R0) (CT dt))^T *m v) = 0 ->
    qf (mQ m (CT R0) (CT dt)) v = 0 -> v = 0
}.

Section Leaf.
Variables (b : model) (n : nat).
Variables (Phibar : R -> R -> 'M[R]_(md b)) (Qaug12 : R -> R -> 'M[R]_(md b, 1)) (Qaug22 : R -> R -> R).
Let m := @integrated_model b n Phibar Qaug12 Qaug22.
Let d := md b.
Variable ok : R -> Prop.
Hypothesis dl : declared_lti b.
Hypothesis hA : forall dt, mA m (CT R0) (CT dt) = expm (dt *: mF m).
Hypothesis hQ : forall dt, Rle 0 dt -> ok dt ->
  mQ m (CT R0) (CT dt) = Q_from_VanLoan (mF m) (mL m) (mQc m) dt.
Hypothesis pQc : pdmx (mQc b).
Variable j : nat.
Hypothesis reach : unit_rows d 1 *m iter j (mulmx (mF b)) (mL b) <> 0.

Lemma F_iter i : iter i.+1 (mulmx (mF m)) (mL m)
  = col_mx (iter i.+1 (mulmx (mF b)) (mL b))
      ((\matrix_(r < n, c < d) (if (c : nat) == 0%N then 1 else 0)) *m iter i (mulmx (mF b)) (mL b)).
Proof.
elim: i => [|i IH]; first by rewrite /= mul_block_col !mul0mx !addr0.
by rewrite iterS IH /= mul_block_col !mul0mx !addr0.
Qed.

Lemma leaf_wide : wide m n ok.
Proof.
split.
- by apply: pd_block; [case: dl | exact: pd1].
- by move=> dt; rewrite hA; have := E_cancel (mF m) dt => /mulmx1_unit[].
move=> s dt v sn t0 k0; rewrite hQ //; last exact: Rlt_le.
rewrite hA; set u := _ *m v => hr hq.
have vE : v = (expm (dt *: - mF m))^T *m u.
  by rewrite /u mulmxA -trmx_mul E_cancel trmx1 mul1mx.
clearbody u; rewrite vE in hq *.
have := noise_reach (pQc : pdmx (mQc m)) t0 hq j.+1; rewrite F_iter.
have us : u = col_mx (usubmx u) (dsubmx u) by rewrite vsubmxK.
have u0 : u = (\matrix_(i, k) (u (rshift d (Ordinal sn)) 0 *+ ((i : nat) == (d + s)%N))).
  move: hr; rewrite /= d_ge_slot // => hr.
  apply/matrixP=> i k; rewrite (ord1 k) !mxE; case: eqP => e.
    by rewrite mulr1n; congr (u _ _); apply: val_inj.
  have := congr1 (fun M : 'cV_(d + n) => M i 0) hr.
  by rewrite tr_diag_mx mul_diag_mx !mxE; case: eqP => // _; rewrite mul1r mulr0n.
move=> hz.
set c := u (rshift d (Ordinal sn)) 0 in u0.
suff c0 : c = 0 by rewrite u0 c0; apply/matrixP=> i k; rewrite mxE big1 ?mxE // => l _; rewrite [X in _ * X]mxE mul0rn mulr0.
have hz2 : c *: (unit_rows d 1 *m iter j (mulmx (mF b)) (mL b)) = 0.
  have ut : usubmx u = 0.
    apply/matrixP=> i k; rewrite u0 !mxE /=; case: eqP => // e.
    by have := ltn_ord i; rewrite e ltnNge leq_addr.
  rewrite -hz us tr_col_mx mul_row_col ut trmx0 mul0mx add0r mulmxA scalemxAl; congr (_ *m _).
  apply/matrixP=> i k; rewrite !mxE (bigD1 (Ordinal sn)) //= big1 ?addr0; last first.
    move=> l hl; rewrite !mxE u0 !mxE /= eqn_add2l.
    by case: eqP => [e|_]; [case/eqP: hl; apply: val_inj|rewrite mul0r].
  by rewrite !mxE (ord1 i).
case: (eqVneq c 0) => // nz; case: reach.
by apply: (scalerI nz); rewrite hz2 scaler0.
Qed.
End Leaf.

Lemma wide_ext m n n' (ok ok' : R -> Prop) : (n' <= n)%N -> (forall dt, ok' dt -> ok dt) ->
  wide m n ok -> wide m n' ok'.
Proof.
move=> hn ho w; split; [exact: (wd_P w)|exact: (wd_A w)|].
by move=> s dt v sn t0 /ho o; apply: (wd_Q w) => //; apply: leq_trans hn.
Qed.

Lemma unit_block d1 d2 (A : 'M[R]_d1) (B : 'M[R]_d2) : A \in unitmx -> B \in unitmx ->
  block_mx A 0 0 B \in unitmx.
Proof. by rewrite !unitmxE det_ublock unitrM => -> ->. Qed.


Lemma sum_wide m1 m2 n1 n2 (ok1 ok2 ok : R -> Prop) :
  (forall dt, ok dt -> ok1 dt /\ ok2 dt) ->
  (forall dt, Rle 0 dt -> ok1 dt -> psdmx (mQ m1 (CT R0) (CT dt))) ->
  (forall dt, Rle 0 dt -> ok2 dt -> psdmx (mQ m2 (CT R0) (CT dt))) ->
  wide m1 n1 ok1 -> wide m2 n2 ok2 -> wide (sum_model m1 m2) (minn n1 n2) ok.
Proof.
move=> okE p1 p2 w1 w2; split.
- by apply: pd_block; [exact: (wd_P w1)|exact: (wd_P w2)].
- by move=> dt; apply: unit_block; [exact: (wd_A w1)|exact: (wd_A w2)].
move=> s dt v sn t0 /okE[o1 o2].
have s1 : (s < n1)%N by apply: leq_trans sn _; exact: geq_minl.
have s2 : (s < n2)%N by apply: leq_trans sn _; exact: geq_minr.
move: v; rewrite /= => v; rewrite -[v]vsubmxK; set v1 := usubmx v; set v2 := dsubmx v.
rewrite !tr_block_mx !mul_block_col !trmx0 !mul0mx !addr0 !add0r.
rewrite qf_block col_mxKu col_mxKd => hr.
have [h1 h2] : (mReset m1 s)^T *m ((mA m1 (CT R0) (CT dt))^T *m v1) = 0 /\
    (mReset m2 s)^T *m ((mA m2 (CT R0) (CT dt))^T *m v2) = 0.
  by move: hr; rewrite -[RHS]vsubmxK !linear0 => /eq_col_mx.
have q1 := proj2 (p1 _ (Rlt_le _ _ t0) o1) v1.
have q2 := proj2 (p2 _ (Rlt_le _ _ t0) o2) v2.
move=> /eqP; rewrite paddr_eq0 // => /andP[/eqP e1 /eqP e2].
by rewrite (wd_Q w1 s1 t0 o1 h1 e1) (wd_Q w2 s2 t0 o2 h2 e2) col_mx0.
Qed.

Lemma sq_pos x : x <> R0 -> Rlt 0 (sq x).
Proof. by move=> h; have := Rsqr_pos_lt x h; rewrite /Rsqr /sq. Qed.
Lemma sho_Qc_pd w q s nm : wf_kernel (SHO w q s nm) -> pdmx (mQc (denote (SHO w q s nm))).
Proof.
move=> [w0 [q0 /sq_pos s0]]; apply: pd11; rewrite mxE /=; apply/RltP; toR.
apply: Rdiv_lt_0_compat => //; apply: Rmult_lt_0_compat => //.
by have := pow_lt _ 3 w0; rewrite /=; lra.
Qed.
Lemma exp_Qc_pd l s nm : wf_kernel (Exp l s nm) -> pdmx (mQc (denote (Exp l s nm))).
Proof.
move=> [l0 /sq_pos s0]; apply: pd11; rewrite mxE /=; apply/RltP; toR.
by repeat (first [apply: Rdiv_lt_0_compat => //|apply: Rmult_lt_0_compat => //]); lra.
Qed.
Lemma m32_Qc_pd l s nm : wf_kernel (Matern32 l s nm) -> pdmx (mQc (denote (Matern32 l s nm))).
Proof.
move=> [l0 /sq_pos s0]; apply: pd11; rewrite mxE /=; apply/RltP; toR.
have l1 : Rlt 0 (Rdiv (sqrt 3) l) by apply: Rdiv_lt_0_compat => //; apply: sqrt_lt_R0; lra.
by apply: Rmult_lt_0_compat => //; have := pow_lt _ 3 l1; rewrite /=; lra.
Qed.
Lemma m52_Qc_pd l s nm : wf_kernel (Matern52 l s nm) -> pdmx (mQc (denote (Matern52 l s nm))).
Proof.
move=> [l0 /sq_pos s0]; apply: pd11; rewrite mxE /=; apply/RltP; toR.
have l1 : Rlt 0 (Rdiv (sqrt 5) l) by apply: Rdiv_lt_0_compat => //; apply: sqrt_lt_R0; lra.
apply: Rdiv_lt_0_compat; last lra.
by apply: Rmult_lt_0_compat => //; have := pow_lt _ 5 l1; rewrite /=; lra.
Qed.
Lemma sho_reach w q s nm : let b := denote (SHO w q s nm) in
  unit_rows (md b) 1 *m iter 1 (mulmx (mF b)) (mL b) <> 0.
Proof.
move=> b /(congr1 (fun M : 'M_(1, 1) => M 0 0)) /=.
by mxsimp; lra.
Qed.
Lemma exp_reach l s nm : let b := denote (Exp l s nm) in
  unit_rows (md b) 1 *m iter 0 (mulmx (mF b)) (mL b) <> 0.
Proof.
move=> b /(congr1 (fun M : 'M_(1, 1) => M 0 0)) /=.
by mxsimp; lra.
Qed.
Lemma m32_reach l s nm : let b := denote (Matern32 l s nm) in
  unit_rows (md b) 1 *m iter 1 (mulmx (mF b)) (mL b) <> 0.
Proof.
move=> b /(congr1 (fun M : 'M_(1, 1) => M 0 0)) /=.
by mxsimp; lra.
Qed.
Lemma m52_reach l s nm : let b := denote (Matern52 l s nm) in
  unit_rows (md b) 1 *m iter 2 (mulmx (mF b)) (mL b) <> 0.
Proof.
move=> b /(congr1 (fun M : 'M_(1, 1) => M 0 0)) /=.
by mxsimp; lra.
Qed.

Lemma leaf_kernel_wide k b n : integrated_of k = Some (b, n) -> wf_kernel b -> sharp_kernel b ->
  noisy_integrated k -> wide (denote k) n (fun dt => noise_kept dt b /\ integral_noise_kept dt k).
Proof.
move=> ik wf sk nk; have dl := kernel_declared wf sk.
have hlag dt : lag (CT R0) (CT dt) = dt by rewrite /lag /= Rminus_0_r.
have tr : transition_raises false k = None by case: (k) ik.
have hA dt : mA (denote k) (CT R0) (CT dt) = expm (dt *: mF (denote k)).
  have ht : kernel_transition false k (CT R0) (CT dt) = inr (mA (denote k) (CT R0) (CT dt)).
    by rewrite /kernel_transition tr.
  by have [-> _] := @int_transition false k b n (CT R0) (CT dt) (CT R0) _ ik wf sk ht; rewrite hlag.
have hQ dt : Rle R0 dt -> noise_kept dt b /\ integral_noise_kept dt k ->
    mQ (denote k) (CT R0) (CT dt) = Q_from_VanLoan (mF (denote k)) (mL (denote k)) (mQc (denote k)) dt.
  move=> t0 [k1 k2]; have := @int_noise k b n (CT R0) (CT dt) (CT R0) ik wf sk.
  by rewrite hlag => /(_ t0 k1 k2) [-> _].
clear tr.
case: k ik hA hQ nk => // [w q s m nm|l s m nm|l s m nm|l s m nm] [eb en] hA hQ _; subst b n.
- exact: (@leaf_wide _ _ _ _ _ _ dl hA hQ (sho_Qc_pd wf) 1 (@sho_reach w q s nm)).
- exact: (@leaf_wide _ _ _ _ _ _ dl hA hQ (exp_Qc_pd wf) 0 (@exp_reach l s nm)).
- exact: (@leaf_wide _ _ _ _ _ _ dl hA hQ (m32_Qc_pd wf) 1 (@m32_reach l s nm)).
- exact: (@leaf_wide _ _ _ _ _ _ dl hA hQ (m52_Qc_pd wf) 2 (@m52_reach l s nm)).
Qed.

Lemma kernel_wide k : wf_integrated k -> noisy_integrated k ->
  wide (denote k) (instruments k) (fun dt => all_noise_kept dt k).
Proof.
elim: k => // [k1 IH1 k2 IH2|w q s n nm|l s n nm|l s n nm|l s n nm];
  try by move=> [wf sk] nk; exact: leaf_kernel_wide.
move=> [w1 w2] [n1 n2].
have [b1 e1] := wf_integrated_base w1; have [b2 e2] := wf_integrated_base w2.
apply: (@sum_wide _ _ _ _ (fun dt => all_noise_kept dt k1) (fun dt => all_noise_kept dt k2)).
- by move=> dt [].
- exact: (wc_Q (kernel_wincov w1 e1)).
- exact: (wc_Q (kernel_wincov w2 e2)).
- exact: IH1.
- exact: IH2.
Qed.
