(** Sums of integrated kernels have the covariances of exposure means. *)
From Coq Require Import Reals Lra.
From mathcomp Require Import all_ssreflect all_algebra.
From Coquelicot Require Import Coquelicot.
From Verif.Prelude Require Import Rstruct Zmod Psd MxCalc.
From Verif.Spec Require Import Expm Integral Lti WfKernel CovOf WfIntegrated IntCov.
From Verif.Model Require Import Array Helpers BaseKernels IntegratedKernels Kernel.
From Verif.Proofs Require Import Expm Lti Leaves KernelLti Evaluate KernelThms Joint LagInt IntLeaf
  IntegratedThms WindowCov.
Set Implicit Arguments.
Unset Strict Implicit.
Unset Printing Implicit Defensive.
Import GRing.Theory.
Local Open Scope ring_scope.

Section Sum.
Variables (m1 m2 : model) (n1 n2 : nat) (kap1 kap2 : R -> R) (ok1 ok2 ok : R -> Prop).
Variables (w1 : wincov m1 n1 kap1 ok1) (w2 : wincov m2 n2 kap2 ok2).
Hypothesis okE : forall dt, ok dt -> ok1 dt /\ ok2 dt.
Let m := sum_model m1 m2.
Let n := minn n1 n2.
Let kap r := Rplus (kap1 r) (kap2 r).

Definition sum_S tau a u : 'M[R]_(md m) := block_mx (wc_S w1 tau a u) 0 0 (wc_S w2 tau a u).
Definition sum_C X tau a : 'cV[R]_(md m) := col_mx (wc_C w1 X tau a) (wc_C w2 X tau a).

Definition sum_wincov : wincov m n kap ok.
Proof.
have n1_ s : (s < n)%N -> (s < n1)%N by move=> h; apply: leq_trans h _; exact: geq_minl.
have n2_ s : (s < n)%N -> (s < n2)%N by move=> h; apply: leq_trans h _; exact: geq_minr.
apply: (@Wincov m n kap ok sum_S sum_C).
- by move=> x; apply: (continuous_plus kap1 kap2); [exact: (wc_cont w1)|exact: (wc_cont w2)].
- by move=> x; rewrite /kap (wc_even w1) (wc_even w2).
- by move=> tau; rewrite /sum_S -!wc_init.
- move=> tau dt a u t0 /okE[o1 o2].
  rewrite /sum_S /= (wc_step w1 tau a u t0 o1) (wc_step w2 tau a u t0 o2).
  by rewrite tr_block_mx !mulmx_block !trmx0 !mul0mx !mulmx0 !addr0 !add0r !mul0mx add_block_mx !addr0.
- move=> s tau a u sn ha; rewrite /sum_S /= -(wc_reset w1 u (n1_ _ sn) ha) -(wc_reset w2 u (n2_ _ sn) ha).
  by rewrite tr_block_mx !mulmx_block !trmx0 !mul0mx !mulmx0 !addr0 !add0r !mul0mx.
- move=> X a u hi l0 ha hs; rewrite /sum_S /sum_C /= tr_row_mx mul_block_col !mul0mx addr0 add0r.
  by rewrite (wc_obs w1 (n1_ _ hi)) // (wc_obs w2 (n2_ _ hi)).
- move=> X tau dt a; rewrite /sum_C /= mul_block_col !mul0mx addr0 add0r.
  by rewrite -!wc_Cstep.
- move=> X s tau a sn l0 ft; rewrite /sum_C /= mul_block_col !mul0mx addr0 add0r.
  by rewrite (wc_Creset w1 a (n1_ _ sn)) // (wc_Creset w2 a (n2_ _ sn)).
- move=> X X' a hi l0 l0' ff hs; rewrite /sum_C /= mul_row_col mxE.
  rewrite (wc_read w1 (n1_ _ hi)) // (wc_read w2 (n2_ _ hi)) //.
  exact: (esym (mean_cov_add X X' (wc_cont w1) (wc_cont w2) (wc_even w1) (wc_even w2))).
- exact: psd_block (wc_P w1) (wc_P w2).
- by move=> dt t0 /okE[o1 o2]; exact: psd_block (wc_Q w1 t0 o1) (wc_Q w2 t0 o2).
Qed.
End Sum.

Lemma wincov_ext m n n' kap kap' (ok ok' : R -> Prop) : (n' <= n)%N -> (forall r, kap r = kap' r) ->
  (forall dt, ok' dt -> ok dt) -> wincov m n kap ok -> wincov m n' kap' ok'.
Proof.
move=> hn hk ho w; apply: (@Wincov m n' kap' ok' (wc_S w) (wc_C w)).
- by move=> x; apply: (continuous_ext kap) => //; exact: (wc_cont w).
- by move=> x; rewrite -!hk (wc_even w).
- exact: (wc_init w).
- by move=> tau dt a u t0 /ho o; exact: (wc_step w).
- by move=> s tau a u sn; apply: (wc_reset w); apply: leq_trans hn.
- by move=> X a u sn; apply: (wc_obs w); apply: leq_trans hn.
- exact: (wc_Cstep w).
- by move=> X s tau a sn; apply: (wc_Creset w); apply: leq_trans hn.
- move=> X X' a hi l0 l0' ff hs; rewrite -(mean_cov_ext X X' hk).
  by apply: (wc_read w) => //; apply: leq_trans hn.
- exact: (wc_P w).
- by move=> dt t0 /ho; exact: (wc_Q w).
Qed.

Lemma cov_of_model k r : wf_kernel k -> sharp_kernel k -> documented k ->
  (forall X, mH (denote k) X = unit_rows (md (denote k)) 1) ->
  leaf_cov (denote k) r = covariance k (Rabs r).
Proof.
move=> wf sk dk hH; rewrite /leaf_cov.
have ea : Rabs r = alag (CT (Rabs r)) (CT R0).
  by rewrite /alag /= Rminus_0_r Rabs_Rabsolu.
rewrite [in RHS]ea -evaluate_covariance // /evaluate !hH !(lt_A (kernel_declared wf sk)) /=.
case: RltbP => [h|_]; first by have := Rabs_pos r; lra.
by rewrite /lag /= Rminus_0_r.
Qed.

Lemma integrated_base k b n : integrated_of k = Some (b, n) -> sharp_kernel b -> documented b.
Proof.
case: k => // [w q s m nm|l s m nm|l s m nm|l s m nm|l s m nm] [<- _] //= [/negbTE|]; by [right|left].
Qed.

Lemma leaf_kernel_wincov k b n : integrated_of k = Some (b, n) -> wf_kernel b -> sharp_kernel b ->
  wincov (denote k) n (fun r => covariance b (Rabs r))
    (fun dt => noise_kept dt b /\ integral_noise_kept dt k).
Proof.
move=> ik wf sk; have dk := integrated_base ik sk; have dl := kernel_declared wf sk.
have hH X := leaf_H X ik.
have hlag dt : lag (CT R0) (CT dt) = dt by rewrite /lag /= Rminus_0_r.
have tr : transition_raises false k = None by case: (k) ik.
have hA dt : mA (denote k) (CT R0) (CT dt) = expm (dt *: mF (denote k)).
  have ht : kernel_transition false k (CT R0) (CT dt) = inr (mA (denote k) (CT R0) (CT dt)).
    by rewrite /kernel_transition tr.
  by have [-> _] := @int_transition false k b n (CT R0) (CT dt) (CT R0) _ ik wf sk ht; rewrite hlag.
have hQ dt : Rle R0 dt -> noise_kept dt b /\ integral_noise_kept dt k ->
    mQ (denote k) (CT R0) (CT dt) = Q_from_VanLoan (mF (denote k)) (mL (denote k)) (mQc (denote k)) dt.
  move=> t0 [k1 k2]; have := @int_noise k b n (CT R0) (CT dt) (CT R0) ik wf sk.
  by rewrite hlag => /(_ t0 k1 k2) [-> _].
have cE r : leaf_cov (denote b) r = covariance b (Rabs r) by apply: cov_of_model.
apply: (@wincov_ext _ n n (leaf_cov (denote b)) _ (fun dt => noise_kept dt b /\ integral_noise_kept dt k)) => //.
have d0 : (0 < md (denote b))%N by case: (k) ik => // [w q s m nm|l s m nm|l s m nm|l s m nm|l s m nm] [<- _].
clear cE dk tr.
case: k ik hA hQ => // [w q s m nm|l s m nm|l s m nm|l s m nm|l s m nm] [eb en] hA hQ; subst b n;
  exact: leaf_wincov.
Qed.

Lemma kernel_wincov k : wf_integrated k -> forall b, base_kernel k = Some b ->
  wincov (denote k) (instruments k) (fun r => covariance b (Rabs r)) (fun dt => all_noise_kept dt k).
Proof.
elim: k => // [k1 IH1 k2 IH2|w q s n nm|l s n nm|l s n nm|l s n nm|l s n nm]; try by move=> [wf sk] b [<-]; exact: leaf_kernel_wincov.
move=> [/IH1 {}IH1 /IH2 {}IH2] b /=.
case e1: (base_kernel k1) => [b1|] //; case e2: (base_kernel k2) => [b2|] // [<-].
exact: (@sum_wincov _ _ _ _ _ _ _ _ _ (IH1 _ e1) (IH2 _ e2)).
Qed.
