(** The chain of states of the integrated solver has the covariances of exposure means. *)
From Coq Require Import Reals Lra.
From mathcomp Require Import all_ssreflect all_algebra.
From Verif.Prelude Require Import Rstruct Zmod Psd MxCalc.
From Verif.Spec Require Import IntCov.
From Verif.Model Require Import Jax Ssm Sequential Integrated Array BaseKernels IntegratedKernels.
From Verif.Proofs Require Import LagInt IntBook MarkovChain IntExact WindowCov.
Set Implicit Arguments.
Unset Strict Implicit.
Unset Printing Implicit Defensive.
Import Order.TTheory GRing.Theory Num.Theory.
Local Open Scope ring_scope.

Section Track.
Variables (m : model) (n : nat) (kap : R -> R) (ok : R -> Prop) (w : wincov m n kap ok).
Variables (tm dl : seq R) (inst : seq nat) (nd : seq R).
Let N := size tm.
Let K := N.*2.
Let X i := CX (nth 0 tm i) (nth 0 dl i) (nth 0%N inst i).
Let Xs := mkseq X N.
Let A := fun a b => mA m (CT a) (CT b).
Let Q := fun a b => mQ m (CT a) (CT b).
Let Hs := map (mH m) Xs.
Let t := @t_states [realFieldType of R] tm dl.
Let obs := @obsid [realFieldType of R] tm dl.
Let state := @stateid [realFieldType of R] tm dl.
Let Dt k : R := t`_k.+1 - t`_k.
Notation stn := (@st [realFieldType of R] tm dl).
Notation enn := (@en [realFieldType of R] tm dl).

Hypothesis ok0 : ok 0.
Hypothesis okD : forall k, (k.+1 < K)%N -> ok (Dt k).
Hypothesis insts : forall i, (i < N)%N -> (nth 0%N inst i < n)%N.
Hypothesis lens : forall i, (i < N)%N -> Rle 0 (nth 0 dl i).
Hypothesis sep : forall i j, (i < N)%N -> (j < N)%N -> nth 0%N inst i = nth 0%N inst j ->
  Rlt 0 (nth 0 dl i) -> ~ (Rlt (begin (X i)) (begin (X j)) /\ Rlt (begin (X j)) (finish (X i))).

Let Ap := @ie_Ap [realFieldType of R] (md m) A (mReset m) tm dl inst.
Let Qp := @ie_Q [realFieldType of R] (md m) Q tm dl.
Let S0 := @ie_S0 [realFieldType of R] (md m) A Q (mPinf m).
Let S := mS S0 Ap Qp.

Lemma half2 (x : R) : x / 2%:R = Rdiv x 2.
Proof. by rewrite RnatE. Qed.
Lemma st_begin i : (i < N)%N -> t`_(stn i) = begin (X i).
Proof. by move=> h; have [_ _ ->] := st_spec dl h; rewrite half2. Qed.
Lemma en_finish i : (i < N)%N -> t`_(enn i) = finish (X i).
Proof. by move=> h; have [_ _ ->] := en_spec dl h; rewrite half2. Qed.

(** When instrument j was last reset before state k, and whether it never was. *)
Fixpoint aw (k : nat) : nat -> R :=
  if k is k'.+1 then
    if nth 0%N state k' == 0%N then upd (aw k') (nth 0%N inst (nth 0%N obs k')) (t`_k')
    else aw k'
  else fun=> t`_0.
Fixpoint uw (k : nat) : nat -> bool :=
  if k is k'.+1 then
    if nth 0%N state k' == 0%N then upd (uw k') (nth 0%N inst (nth 0%N obs k')) false
    else uw k'
  else fun=> true.

Lemma t_le i j : (i <= j)%N -> (j < K)%N -> Rle (t`_i) (t`_j).
Proof. by move=> ij jK; apply/RleP; apply: t_sorted. Qed.
Lemma obs_inst k : (k < K)%N -> (nth 0%N inst (nth 0%N obs k) < n)%N.
Proof. by move=> h; apply: insts; apply: obs_lt. Qed.

Lemma aw_le k j : (k < K)%N -> Rle (aw k j) (t`_k).
Proof.
elim: k j => [|k IH] j hk /=; first exact: Rle_refl.
have hk' := ltnW hk; have le := t_le (leqnSn k) hk.
have hj := Rle_trans _ _ _ (IH j hk') le.
by case: ifP => _ //; rewrite /upd; case: ifP.
Qed.

Lemma addDt k : Rplus (t`_k) (Dt k) = t`_k.+1.
Proof. by rewrite /Dt; toR; ring. Qed.
Lemma Dt_ge0 k : (k.+1 < K)%N -> Rle 0 (Dt k).
Proof. by move=> hk; have := t_le (leqnSn k) hk; rewrite /Dt; toR; lra. Qed.

Lemma S_win k : (k < K)%N -> S k = wc_S w (t`_k) (aw k) (uw k).
Proof.
elim: k => [|k IH] hk.
  rewrite /S /= /S0 /ie_S0 /A /Q (wc_init w (t`_0)).
  have := @wc_step _ _ _ _ w (t`_0) 0 (aw 0) (uw 0) (Rle_refl _) ok0.
  by rewrite Rplus_0_r => <-.
have hk' := ltnW hk; rewrite -[S k.+1]/(Ap k *m S k *m (Ap k)^T + Qp k) IH //.
rewrite /Ap /ie_Ap /Qp /ie_Q hk trmx_mul !mulmxA /= -[(t_states tm dl)`_k.+1 - (t_states tm dl)`_k]/(Dt k) /reset_at -/state -/obs.
rewrite -[in RHS](addDt k) [in RHS]wc_step; [|exact: Dt_ge0|exact: okD].
congr (_ + _).
case: ifP => hs; last by rewrite trmx1 !mulmx1.
rewrite -(wc_reset w (uw k) (obs_inst hk') (fun j => @aw_le k j hk')).
by rewrite !mulmxA.
Qed.

(** The covariance of a later state with a measurement. *)
Lemma C_win x l k : Rle 0 (len x) -> Rle (finish x) (t`_l) -> (l <= k)%N -> (k < K)%N ->
  T Ap k l *m wc_C w x (t`_l) (aw l) = wc_C w x (t`_k) (aw k).
Proof.
move=> l0 fx; elim: k => [|k IH] lk hk.
  by move: lk; rewrite leqn0 => /eqP ->; rewrite T_refl mul1mx.
move: lk; rewrite leq_eqVlt => /orP[/eqP ->|lk]; first by rewrite T_refl mul1mx.
have hk' := ltnW hk; rewrite TS // -mulmxA IH // /Ap /ie_Ap -mulmxA /= -[(t_states tm dl)`_k.+1 - (t_states tm dl)`_k]/(Dt k) /reset_at -/state -/obs.
have fk : Rle (finish x) (t`_k) by apply: Rle_trans (t_le (lk : (l <= k)%N) hk').
rewrite -[in RHS](addDt k) [in RHS]wc_Cstep; congr (_ *m _).
case: ifP => hs; last by rewrite mul1mx.
by rewrite (wc_Creset w _ (obs_inst hk')).
Qed.

(** At the end of an exposure its instrument was last reset at its start. *)
Lemma window i k : (i < N)%N -> Rlt 0 (nth 0 dl i) -> (stn i < k)%N -> (k <= enn i)%N ->
  aw k (nth 0%N inst i) = begin (X i) /\ uw k (nth 0%N inst i) = false.
Proof.
move=> hi l0; elim: k => // k IH sk ke.
have eK : (enn i < K)%N by apply: en_lt.
have hk : (k < K)%N by apply: leq_ltn_trans eK; apply: ltnW.
move: sk; rewrite ltnS leq_eqVlt => /orP[/eqP e|sk].
  have [o1 s1 t1] := st_spec dl hi.
  by rewrite /= -e s1 o1 eqxx /upd eqxx st_begin.
have [a1 u1] := IH sk (ltnW ke); rewrite /=.
case: ifP => // /eqP hs; rewrite /upd.
case: eqP => [e|_]; last by rewrite a1 u1.
split=> //.
set j := nth 0%N obs k in e *; have hj : (j < N)%N by apply: obs_lt.
have ks : k = stn j by apply: is_start.
have t1 : t`_k = begin (X j) by rewrite ks st_begin.
have lt : Rlt (begin (X j)) (finish (X i)).
  apply/RltP; rewrite -st_begin // -en_finish //.
  have [_ _ ->] := st_spec dl hj; have [_ _ ->] := en_spec dl hi.
  by apply: st_en_lt => //; rewrite -ks.
have ge : Rle (begin (X i)) (begin (X j)).
  by rewrite -t1 -st_begin //; apply: t_le => //; apply: ltnW.
have := sep hi hj e l0; rewrite t1 => ns.
by case: (Rle_lt_or_eq_dec _ _ ge) => // lt'; case: ns.
Qed.

Lemma X_len i : len (X i) = nth 0 dl i. Proof. by []. Qed.
Lemma X_inst i : inst_of (X i) = nth 0%N inst i. Proof. by []. Qed.
Lemma Hs_nth i : (i < N)%N -> nth 0 Hs i = mH m (X i).
Proof. by move=> h; rewrite (nth_map (CT 0)) ?size_mkseq // nth_mkseq. Qed.

Lemma window_end i : (i < N)%N -> Rlt 0 (nth 0 dl i) ->
  aw (enn i) (nth 0%N inst i) = begin (X i) /\ uw (enn i) (nth 0%N inst i) = false.
Proof. by move=> hi l0; apply: window => //; apply: st_before_en => //; apply/RltP. Qed.

(** Covariance of the state at an end with the measurement made there. *)
Lemma S_obs i : (i < N)%N -> S (enn i) *m (mH m (X i))^T = wc_C w (X i) (t`_(enn i)) (aw (enn i)).
Proof.
move=> hi; rewrite S_win ?en_lt // en_finish //.
apply: (wc_obs w); first exact: insts.
- exact: lens.
- by move=> j; rewrite -en_finish //; apply: aw_le; apply: en_lt.
- by move=> l0; apply: window_end.
Qed.

Lemma cross i k : (i < N)%N -> (enn i <= k)%N -> (k < K)%N ->
  mcov S0 Ap Qp k (enn i) *m (mH m (X i))^T = wc_C w (X i) (t`_k) (aw k).
Proof.
move=> hi ik hk; rewrite mcov_ge // -mulmxA S_obs // C_win //; first exact: lens.
by rewrite en_finish //; apply: Rle_refl.
Qed.

Lemma win_psd_P : psdmx (mPinf m). Proof. exact: (wc_P w). Qed.
Lemma win_psd_Q0 : psdmx (Q 0 0). Proof. exact: (wc_Q w (Rle_refl _) ok0). Qed.
Lemma win_psd_Q k : (k.+1 < K)%N -> psdmx (Q 0 (Dt k)).
Proof. by move=> hk; apply: (wc_Q w); [apply: Dt_ge0|apply: okD]. Qed.

Lemma obs_cov_le i j : (i < N)%N -> (j < N)%N -> (enn j <= enn i)%N ->
  (mH m (X i) *m mcov S0 Ap Qp (enn i) (enn j) *m (mH m (X j))^T) 0 0 = mean_cov kap (X j) (X i).
Proof.
move=> hi hj ji; rewrite -mulmxA cross ?en_lt // en_finish //.
apply: (wc_read w); [exact: insts|exact: lens|exact: lens| |].
  by rewrite -!en_finish //; apply: t_le => //; apply: en_lt.
by move=> l0; case: (window_end hi l0).
Qed.

(** The covariance of the measurements. *)
Lemma win_gram i j : (i < N)%N -> (j < N)%N ->
  (mH m (X i) *m mcov S0 Ap Qp (enn i) (enn j) *m (mH m (X j))^T) 0 0 = mean_cov kap (X i) (X j).
Proof.
move=> hi hj; case: (leqP (enn j) (enn i)) => [ji|/ltnW ij].
  by rewrite obs_cov_le // mean_cov_sym //; [exact: (wc_cont w)|exact: (wc_even w)].
rewrite -(obs_cov_le hj hi ij).
have sS0 : S0^T = S0.
  by have [] := psdD (psd_conj (A 0 0) win_psd_P) win_psd_Q0.
have sQp k : (Qp k)^T = Qp k.
  rewrite /Qp /ie_Q; case: ifP => [hk|_]; last by rewrite trmx0.
  by have [] := win_psd_Q hk.
by rewrite -(mcov_tr Ap sS0 sQp) -[in LHS](trmxK (_ *m _ *m _)) [in LHS]mxE !trmx_mul !trmxK mulmxA.
Qed.

Lemma win_Sg (i j : 'I_N) : @ie_Sg [realFieldType of R] (md m) A Q Hs (mReset m) nd tm dl inst (mPinf m) i j
  = mean_cov kap (X i) (X j) + nd`_i *+ (i == j).
Proof. by rewrite [LHS]mxE /ie_h !Hs_nth // win_gram. Qed.
End Track.
