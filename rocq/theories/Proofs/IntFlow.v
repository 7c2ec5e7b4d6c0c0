(** Transitions and process noise of the integrated kernels over two consecutive steps. *)
From Coq Require Import Reals Lra.
From mathcomp Require Import all_ssreflect all_algebra.
From Verif.Prelude Require Import Rstruct Zmod MxCalc.
From Verif.Spec Require Import Expm Integral Lti WfKernel WfIntegrated IntCov.
From Verif.Model Require Import Array Helpers BaseKernels IntegratedKernels Kernel.
From Verif.Proofs Require Import Expm MxInt VanLoan Lti Leaves IntegratedThms KernelLti.
Set Implicit Arguments.
Unset Strict Implicit.
Unset Printing Implicit Defensive.
Import GRing.Theory.
Local Open Scope ring_scope.

Lemma flow_A n (F : 'M[R]_n) (a c : R) : expm ((Rplus a c) *: F) = expm (c *: F) *m expm (a *: F).
Proof. by rewrite -expm_add; congr (expm (_ *: _)); toR; ring. Qed.

Lemma flow_Q n p (F : 'M[R]_n) (L : 'M[R]_(n, p)) Qc (a c : R) :
  Q_from_VanLoan F L Qc (Rplus a c)
  = expm (c *: F) *m Q_from_VanLoan F L Qc a *m (expm (c *: F))^T + Q_from_VanLoan F L Qc c.
Proof.
set Q := Q_from_VanLoan F L Qc.
have h : (fun a => Q (a + c)) =1 fun a => expm (c *: F) *m Q a *m (expm (c *: F))^T + Q c.
  apply: (mxd_same (h := fun x => expm ((x + c) *: F) *m (L *m Qc *m L^T) *m (expm ((x + c) *: F))^T)).
  - by move=> x; apply: mxd_shift; apply: Q_der.
  - move=> x; apply: mxd_eq.
      apply: mxd_add; last exact: mxd_const.
      by apply: mxd_mulr; apply: mxd_mull; apply: Q_der.
    by rewrite addr0 -[x + c]/(Rplus x c) flow_A trmx_mul !mulmxA.
  - by rewrite /= add0r /Q Q_0 mulmx0 mul0mx add0r.
exact: h.
Qed.

Record flow (m : model) (ok : R -> Prop) : Prop := Flow {
  fl_A : forall a c, mA m (CT R0) (CT (Rplus a c)) = mA m (CT R0) (CT c) *m mA m (CT R0) (CT a);
  fl_Q : forall a c, Rle 0 a -> Rle 0 c -> ok a -> ok c -> ok (Rplus a c) ->
    mQ m (CT R0) (CT (Rplus a c))
    = mA m (CT R0) (CT c) *m mQ m (CT R0) (CT a) *m (mA m (CT R0) (CT c))^T + mQ m (CT R0) (CT c)
}.

Lemma sum_flow m1 m2 (ok1 ok2 ok : R -> Prop) : (forall dt, ok dt -> ok1 dt /\ ok2 dt) ->
  flow m1 ok1 -> flow m2 ok2 -> flow (sum_model m1 m2) ok.
Proof.
move=> okE f1 f2; split.
- move=> a c /=; rewrite (fl_A f1) (fl_A f2) mulmx_block.
  by rewrite !mul0mx !mulmx0 !addr0 !add0r.
- move=> a c a0 c0 /okE[p1 p2] /okE[q1 q2] /okE[r1 r2] /=.
  rewrite (fl_Q f1 a0 c0 p1 q1 r1) (fl_Q f2 a0 c0 p2 q2 r2) tr_block_mx !mulmx_block !trmx0.
  by rewrite !mul0mx !mulmx0 !addr0 !add0r !mul0mx add_block_mx !addr0.
Qed.

Lemma leaf_flow k b n : integrated_of k = Some (b, n) -> wf_kernel b -> sharp_kernel b ->
  flow (denote k) (fun dt => noise_kept dt b /\ integral_noise_kept dt k).
Proof.
move=> ik wf sk.
have hlag dt : lag (CT R0) (CT dt) = dt by rewrite /lag /= Rminus_0_r.
have tr : transition_raises false k = None by case: (k) ik.
have hA dt : mA (denote k) (CT R0) (CT dt) = expm (dt *: mF (denote k)).
  have ht : kernel_transition false k (CT R0) (CT dt) = inr (mA (denote k) (CT R0) (CT dt)).
    by rewrite /kernel_transition tr.
  by have [-> _] := @int_transition false k b n (CT R0) (CT dt) (CT R0) _ ik wf sk ht; rewrite hlag.
have hQ dt : Rle R0 dt -> noise_kept dt b /\ integral_noise_kept dt k ->
    mQ (denote k) (CT R0) (CT dt) = Q_from_VanLoan (mF (denote k)) (mL (denote k)) (mQc (denote k)) dt.
  move=> t0 [k1 k2]; have := @int_noise k b n (CT R0) (CT dt) (CT R0) ik wf sk.
  by rewrite hlag => /(_ t0 k1 k2) [-> _].
split=> [a c|a c a0 c0 h1 h2 h3]; first by rewrite !hA flow_A.
have ac : Rle 0 (Rplus a c) by lra.
by rewrite !hQ // flow_Q !hA.
Qed.

Lemma kernel_flow k : wf_integrated k -> flow (denote k) (fun dt => all_noise_kept dt k).
Proof.
elim: k => // [k1 IH1 k2 IH2|w q s n nm|l s n nm|l s n nm|l s n nm|l s n nm];
  try by move=> [wf sk]; exact: leaf_flow.
move=> [/IH1 f1 /IH2 f2]; apply: sum_flow f1 f2; by move=> dt [].
Qed.
