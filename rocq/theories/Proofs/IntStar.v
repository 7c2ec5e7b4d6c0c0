(** The covariances of a state inserted into the chain of the integrated solver: those of the
    instantaneous process with the exposure means. *)
From Coq Require Import Reals Lra.
From mathcomp Require Import all_ssreflect all_algebra.
From Verif.Prelude Require Import Rstruct Zmod Psd MxCalc.
From Verif.Spec Require Import IntCov.
From Verif.Model Require Import Jax Ssm Sequential Integrated Array BaseKernels IntegratedKernels.
From Verif.Proofs Require Import LagInt IntBook MarkovChain IntExact WindowCov IntGram.
Set Implicit Arguments.
Unset Strict Implicit.
Unset Printing Implicit Defensive.
Import Order.TTheory GRing.Theory Num.Theory.
Local Open Scope ring_scope.

Lemma sub_ge (a b : R) : Rle a b -> Rle 0 (b - a). Proof. by toR; lra. Qed.
Lemma add_sub (a b : R) : Rplus a (b - a) = b. Proof. by toR; ring. Qed.

Lemma conj_sym n (M P C : 'M[R]_n) : P^T = P -> C^T = C -> (M *m P *m M^T + C)^T = M *m P *m M^T + C.
Proof. by move=> hP hC; rewrite linearD /= hC !trmx_mul trmxK hP mulmxA. Qed.

Section Star.
Variables (m : model) (n : nat) (kap : R -> R) (ok : R -> Prop) (w : wincov m n kap ok).
Variables (tm dl : seq R) (inst : seq nat).
Let N := size tm.
Let K := N.*2.
Let X i := CX (nth 0 tm i) (nth 0 dl i) (nth 0%N inst i).
Let A := fun a b => mA m (CT a) (CT b).
Let Q := fun a b => mQ m (CT a) (CT b).
Let t := @t_states [realFieldType of R] tm dl.
Let obs := @obsid [realFieldType of R] tm dl.
Let state := @stateid [realFieldType of R] tm dl.
Let Dt k : R := t`_k.+1 - t`_k.
Notation enn := (@en [realFieldType of R] tm dl).

Hypothesis ok0 : ok 0.
Hypothesis okD : forall k, (k.+1 < K)%N -> ok (Dt k).
Hypothesis insts : forall i, (i < N)%N -> (nth 0%N inst i < n)%N.
Hypothesis lens : forall i, (i < N)%N -> Rle 0 (nth 0 dl i).
Hypothesis sep : forall i j, (i < N)%N -> (j < N)%N -> nth 0%N inst i = nth 0%N inst j ->
  Rlt 0 (nth 0 dl i) -> ~ (Rlt (begin (X i)) (begin (X j)) /\ Rlt (begin (X j)) (finish (X i))).
Hypothesis n0 : (0 < n)%N.

Let Ap := @ie_Ap [realFieldType of R] (md m) A (mReset m) tm dl inst.
Let Qp := @ie_Q [realFieldType of R] (md m) Q tm dl.
Let S0 := @ie_S0 [realFieldType of R] (md m) A Q (mPinf m).
Let S := mS S0 Ap Qp.
Let rs := @reset_at [realFieldType of R] (md m) (mReset m) tm dl inst.
Let aw := aw tm dl inst.
Let uw := uw tm dl inst.
Variable s : R.
Let x := CT s.
Let h := mH m x.

Lemma x_begin : begin x = s. Proof. by rewrite /begin /= /Rdiv Rmult_0_l Rminus_0_r. Qed.
Lemma x_finish : finish x = s. Proof. by rewrite /finish /= /Rdiv Rmult_0_l Rplus_0_r. Qed.
Lemma x_len : len x = R0. Proof. by []. Qed.
Lemma x_len0 : Rle 0 (len x). Proof. exact: Rle_refl. Qed.
Lemma x_len' P : Rlt 0 (len x) -> P. Proof. by move=> /Rlt_irrefl. Qed.

Lemma aw_after k j u : (k < K)%N -> Rle (t`_k) u -> Rle (aw k.+1 j) u.
Proof.
move=> hk hu; rewrite /aw /=; have h1 := Rle_trans _ _ _ (@aw_le tm dl inst k j hk) hu.
by case: ifP => // _; rewrite /upd; case: ifP.
Qed.

Section After.
Variable k : nat.
Hypothesis hk : (k < K)%N.
Hypothesis ks : Rle (t`_k) s.
Let A1 := A 0 (s - t`_k).
Let Q1 := Q 0 (s - t`_k).
Hypothesis ok1 : ok (s - t`_k).

Lemma add1 : Rplus (t`_k) (s - t`_k) = s. Proof. exact: add_sub. Qed.

Lemma after_S : A1 *m rs k *m S k *m (A1 *m rs k)^T + Q1 = wc_S w s (aw k.+1) (uw k.+1).
Proof.
have d0 := sub_ge ks.
rewrite -[in RHS]add1 (wc_step w _ _ _ d0 ok1) -/A1; congr (_ + _).
rewrite /S (@S_win _ _ _ _ w tm dl inst ok0 okD insts k hk) trmx_mul !mulmxA -/A1.
rewrite /rs /reset_at /aw /uw /= -/state -/obs.
case: ifP => hs; last by rewrite trmx1 !mulmx1.
rewrite -(wc_reset w _ (obs_inst _ insts hk) (fun j => @aw_le tm dl inst k j hk)).
by rewrite !mulmxA.
Qed.

Lemma after_obs : wc_S w s (aw k.+1) (uw k.+1) *m h^T = wc_C w x s (aw k.+1).
Proof.
have := @wc_obs _ _ _ _ w x (aw k.+1) (uw k.+1) n0 x_len0; rewrite x_finish; apply.
- by move=> j; apply: aw_after.
- exact: x_len'.
Qed.

Lemma after_var : h *m (wc_S w s (aw k.+1) (uw k.+1)) *m h^T = (mean_cov kap x x)%:M.
Proof.
rewrite -mulmxA after_obs; apply/matrixP=> a c; rewrite !ord1 [RHS]mxE eqxx mulr1n.
have := @wc_read _ _ _ _ w x x (aw k.+1) n0 x_len0 x_len0.
rewrite x_finish; apply; first exact: Rle_refl.
exact: x_len'.
Qed.

(** Exposures that have ended. *)
Lemma after_past i : (i < N)%N -> (enn i <= k)%N ->
  (h *m (A1 *m rs k *m (mcov S0 Ap Qp k (enn i) *m (mH m (X i))^T))) 0 0 = mean_cov kap (X i) x.
Proof.
move=> hi ik; rewrite (@cross _ _ _ _ w tm dl inst ok0 okD insts lens sep i k hi ik hk).
have fk : Rle (finish (X i)) (t`_k).
  by rewrite -(en_finish _ inst hi); apply: (@t_le tm dl).
have -> : A1 *m rs k *m wc_C w (X i) (t`_k) (aw k) = wc_C w (X i) s (aw k.+1).
  rewrite -[in RHS]add1 wc_Cstep -mulmxA; congr (_ *m _).
  rewrite /rs /reset_at /aw /= -/state -/obs; case: ifP => hs; last by rewrite mul1mx.
  by rewrite (wc_Creset w _ (obs_inst _ insts hk)) //; apply: lens.
have := @wc_read _ _ _ _ w (X i) x (aw k.+1) n0 (lens hi) x_len0.
rewrite x_finish; apply; last exact: x_len'.
exact: Rle_trans ks.
Qed.

(** Those that have not. *)
Hypothesis hk1 : (k.+1 < K)%N.
Hypothesis sk : Rle s (t`_k.+1).
Let A2 := A 0 (t`_k.+1 - s).
Lemma add2 : Rplus s (t`_k.+1 - s) = t`_k.+1. Proof. exact: add_sub. Qed.

Lemma after_future i : (i < N)%N -> (k < enn i)%N ->
  (h *m (wc_S w s (aw k.+1) (uw k.+1) *m A2^T *m ((T Ap (enn i) k.+1)^T *m (mH m (X i))^T))) 0 0
  = mean_cov kap x (X i).
Proof.
move=> hi ki.
set Ss := wc_S w s _ _.
have sS : Ss^T = Ss.
  have sS0 : S0^T = S0 by have [] := psdD (psd_conj (A 0 0) (win_psd_P w)) (win_psd_Q0 w ok0).
  have sQp j : (Qp j)^T = Qp j.
    rewrite /Qp /ie_Q; case: ifP => [hj|_]; last by rewrite trmx0.
    by have [] := @win_psd_Q _ _ _ _ w tm dl okD j hj.
  have sSk : (S k)^T = S k by apply: sS.
  have [sQ1 _] := wc_Q w (sub_ge ks) ok1.
  by rewrite /Ss -after_S; apply: conj_sym.
rewrite -[(h *m _)]trmxK [LHS]mxE !trmx_mul !trmxK sS.
rewrite -!mulmxA after_obs.
have -> : A2 *m wc_C w x s (aw k.+1) = wc_C w x (t`_k.+1) (aw k.+1).
  by rewrite -[in RHS]add2 wc_Cstep.
rewrite (@C_win _ _ _ _ w tm dl inst insts x k.+1 (enn i) x_len0) ?x_finish ?en_lt //.
have := @wc_read _ _ _ _ w x (X i) (aw (enn i)) (insts hi) x_len0 (lens hi).
rewrite x_finish -(en_finish _ inst hi); apply.
  apply: Rle_trans sk _; apply: (@t_le tm dl) => //; exact: en_lt.
by move=> l0; have [] := @window_end tm dl inst sep i hi l0.
Qed.
End After.

Section Before.
Hypothesis N0 : (0 < N)%N.
Hypothesis st0 : Rle s (t`_0).
Let A2 := A 0 (t`_0 - s).

(** [aw] for a window that was open since s. *)
Fixpoint awx (k : nat) : nat -> R :=
  if k is k'.+1 then
    if nth 0%N state k' == 0%N then upd (awx k') (nth 0%N inst (nth 0%N obs k')) (t`_k')
    else awx k'
  else fun=> s.

Lemma awx_aw k j : uw k j = false -> awx k j = aw k j.
Proof.
elim: k => [//|k IH]; rewrite /uw /aw /= -/state -/obs -/t; case: ifP => _; last exact: IH.
by rewrite /upd; case: ifP => // _; apply: IH.
Qed.

Lemma before_C k : (k < K)%N -> T Ap k 0 *m wc_C w x (t`_0) (awx 0) = wc_C w x (t`_k) (awx k).
Proof.
elim: k => [|k IH] hk; first by rewrite T_refl mul1mx.
have hk' := ltnW hk; rewrite TS // -mulmxA IH // /Ap /ie_Ap -mulmxA /= -[(t_states tm dl)`_k.+1 - (t_states tm dl)`_k]/(Dt k) /reset_at -/state -/obs.
rewrite -[in RHS](addDt tm dl k) [in RHS]wc_Cstep; congr (_ *m _).
case: ifP => hs; last by rewrite mul1mx.
rewrite (wc_Creset w _ (obs_inst _ insts hk')) ?x_finish //; first exact: x_len0.
by apply: Rle_trans st0 _; apply: (@t_le tm dl).
Qed.

Lemma before_var : h *m mPinf m *m h^T = (mean_cov kap x x)%:M.
Proof.
rewrite (wc_init w s) -mulmxA.
have := @wc_obs _ _ _ _ w x (fun=> s) (fun=> true) n0 x_len0; rewrite x_finish => ->.
- apply/matrixP=> a c; rewrite !ord1 [RHS]mxE eqxx mulr1n.
  have := @wc_read _ _ _ _ w x x (fun=> s) n0 x_len0 x_len0.
  rewrite x_finish; apply; first exact: Rle_refl.
  exact: x_len'.
- by move=> j; apply: Rle_refl.
- exact: x_len'.
Qed.

Lemma before_future i : (i < N)%N ->
  (h *m (mPinf m *m A2^T *m ((T Ap (enn i) 0)^T *m (mH m (X i))^T))) 0 0 = mean_cov kap x (X i).
Proof.
move=> hi; have [sP _] := wc_P w.
rewrite -[(h *m _)]trmxK [LHS]mxE !trmx_mul !trmxK sP -!mulmxA.
have -> : mPinf m *m h^T = wc_C w x s (fun=> s).
  rewrite (wc_init w s).
  have := @wc_obs _ _ _ _ w x (fun=> s) (fun=> true) n0 x_len0; rewrite x_finish; apply.
    by move=> j; apply: Rle_refl.
  exact: x_len'.
have -> : A2 *m wc_C w x s (fun=> s) = wc_C w x (t`_0) (awx 0).
  by rewrite -[in RHS](add_sub s (t`_0)) wc_Cstep.
rewrite before_C ?en_lt //.
have := @wc_read _ _ _ _ w x (X i) (awx (enn i)) (insts hi) x_len0 (lens hi).
rewrite x_finish -(en_finish _ inst hi); apply.
  by apply: Rle_trans st0 _; apply: (@t_le tm dl) => //; exact: en_lt.
by move=> l0; have [a1 u1] := @window_end tm dl inst sep i hi l0; rewrite -a1; apply: awx_aw.
Qed.
End Before.
End Star.
