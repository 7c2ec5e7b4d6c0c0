(** A Gauss-Markov chain given by its recursion: the covariances of the states and of
    the observations it implies satisfy the hypotheses of Proofs/Chain.v. *)
From mathcomp Require Import all_ssreflect all_algebra.
From Verif.Prelude Require Import Zmod Psd.
From Verif.Model Require Import Jax.
From Verif.Proofs Require Import Gauss Chain KalmanPd StateCov SeqExact.
Set Implicit Arguments.
Unset Strict Implicit.
Unset Printing Implicit Defensive.
Import Order.TTheory GRing.Theory Num.Theory.
Local Open Scope ring_scope.

Section Transitions.
Variables (F : realFieldType) (d : nat).
Variable Ap : nat -> 'M[F]_d.

(** Transition over m steps from state l, and from state l to state k. *)
Fixpoint Tn (l m : nat) : 'M[F]_d := if m is m'.+1 then Ap (l + m') *m Tn l m' else 1%:M.
Definition T (k l : nat) : 'M[F]_d := Tn l (k - l).

Lemma TS k l : (l <= k)%N -> T k.+1 l = Ap k *m T k l.
Proof. by move=> h; rewrite /T subSn //= subnKC. Qed.
Lemma T_refl k : T k k = 1%:M. Proof. by rewrite /T subnn. Qed.
Lemma T_trans k j l : (l <= j)%N -> (j <= k)%N -> T k l = T k j *m T j l.
Proof.
move=> lj jk; rewrite -(subnKC jk); elim: (k - j)%N => [|m IH].
  by rewrite addn0 T_refl mul1mx.
by rewrite addnS !TS ?leq_addr ?(leq_trans lj) ?leq_addr // IH mulmxA.
Qed.
Lemma T_pred k l : (l < k)%N -> T k l = T k l.+1 *m Ap l.
Proof. by move=> h; rewrite (@T_trans k l.+1 l) // TS // T_refl mulmx1. Qed.
End Transitions.

Section Cov.
Variables (F : realFieldType) (d N : nat).
Variables (S0 : 'M[F]_d) (Ap Q : nat -> 'M[F]_d).
Variables (h : 'I_N -> 'M[F]_(1, d)) (r : 'I_N -> F) (e : 'I_N -> nat).
Hypothesis e_inj : injective e.
Hypothesis sS0 : S0^T = S0.
Hypothesis sQ : forall k, (Q k)^T = Q k.
Let T := T Ap.

Fixpoint mS (k : nat) : 'M[F]_d :=
  if k is k'.+1 then Ap k' *m mS k' *m (Ap k')^T + Q k' else S0.
Definition mcov (k l : nat) : 'M[F]_d :=
  if (l <= k)%N then T k l *m mS l else mS k *m (T l k)^T.
Definition mC (k : nat) : 'M[F]_(d, N) := \matrix_(a, n) (mcov k (e n) *m (h n)^T) a 0.
Definition mSg : 'M[F]_N :=
  \matrix_(i, j) ((h i *m mcov (e i) (e j) *m (h j)^T) 0 0 + r i *+ (i == j)).
Definition mE (k : nat) : 'M[F]_N := diag_mx (\row_n (e n < k)%:R).
Definition mphi (k : nat) : 'M[F]_(d, N) := \matrix_(a, n) ((T (e n) k)^T *m (h n)^T) a 0.
Definition mop (k : nat) : option 'I_N := [pick n | e n == k].
Definition mh (k : nat) : 'M[F]_(1, d) := if mop k is Some n then h n else 0.
Definition mr (k : nat) : 'M[F]_1 := if mop k is Some n then (r n)%:M else 0.

Lemma sS k : (mS k)^T = mS k.
Proof.
elim: k => [|k IH] //=.
by rewrite linearD /= sQ !trmx_mul trmxK IH mulmxA.
Qed.

Lemma mopP k n : mop k = Some n -> e n = k.
Proof. by rewrite /mop; case: pickP => // m /eqP em [<-]. Qed.
Lemma mop_e n : mop (e n) = Some n.
Proof.
by rewrite /mop; case: pickP => [m /eqP /e_inj -> //|/(_ n)]; rewrite eqxx.
Qed.
Lemma mopN k : mop k = None -> forall n, e n != k.
Proof. by rewrite /mop; case: pickP => // hh _ n; rewrite hh. Qed.

Lemma mcov_ge k l : (l <= k)%N -> mcov k l = T k l *m mS l.
Proof. by rewrite /mcov => ->. Qed.
Lemma mcov_le k l : (k <= l)%N -> mcov k l = mS k *m (T l k)^T.
Proof.
rewrite leq_eqVlt => /orP[/eqP ->|h0]; last by rewrite /mcov leqNgt h0.
by rewrite mcov_ge // /T T_refl trmx1 mul1mx mulmx1.
Qed.
Lemma mcov_tr k l : (mcov k l)^T = mcov l k.
Proof.
case: (leqP k l) => [hk|/ltnW hk].
  by rewrite (mcov_le hk) (mcov_ge hk) trmx_mul trmxK sS.
by rewrite (mcov_ge hk) (mcov_le hk) trmx_mul sS.
Qed.

Lemma mulE p (X : 'M[F]_(p, N)) k a n : (X *m mE k) a n = X a n *+ (e n < k)%N.
Proof. by rewrite mul_mx_diag !mxE mulr_natr. Qed.
Lemma mulE' p (X : 'M[F]_(p, N)) k a n : (X *m (1%:M - mE k)) a n = X a n *+ (k <= e n)%N.
Proof.
rewrite mulmxBr mulmx1 mxE [X in _ + X]mxE mulE.
by case: (ltnP (e n) k) => /= _; rewrite ?mulr1n ?mulr0n ?subrr ?subr0.
Qed.
Lemma mulE_eq p (X Y : 'M[F]_(p, N)) k : (forall a n, (e n < k)%N -> X a n = Y a n) ->
  X *m mE k = Y *m mE k.
Proof. by move=> hh; apply/matrixP=> a n; rewrite !mulE; case: ltnP => // /hh ->. Qed.
Lemma mulE'_eq p (X Y : 'M[F]_(p, N)) k : (forall a n, (k <= e n)%N -> X a n = Y a n) ->
  X *m (1%:M - mE k) = Y *m (1%:M - mE k).
Proof. by move=> hh; apply/matrixP=> a n; rewrite !mulE'; case: leqP => // /hh ->. Qed.
Lemma E_mul p (X : 'M[F]_(N, p)) k a n : (mE k *m X) n a = X n a *+ (e n < k)%N.
Proof. by rewrite mul_diag_mx !mxE mulr_natl. Qed.

Lemma mE0 : mE 0 = 0.
Proof. by apply/matrixP=> i j; rewrite !mxE ltn0 mul0rn. Qed.
Lemma mES k : mE k.+1 =
  if mop k is Some n then mE k + (delta_mx 0 n)^T *m delta_mx (0 : 'I_1) n else mE k.
Proof.
apply/matrixP=> i j; case em: (mop k) => [n|].
  rewrite trmx_delta mul_delta_mx !mxE ltnS -(mopP em) leq_eqVlt (inj_eq e_inj).
  have [->|ni] /= := eqVneq i n.
    by rewrite ltnn mul0rn add0r [n == j]eq_sym.
  by rewrite addr0.
by rewrite !mxE ltnS leq_eqVlt (negbTE (mopN em i)).
Qed.
Lemma mEn k n : mop k = Some n -> delta_mx (0 : 'I_1) n *m mE k = 0.
Proof.
move=> em; apply/matrixP=> i j; rewrite mulE !mxE -(mopP em) !ord1 eqxx /=.
by case: eqP => [->|_]; rewrite ?ltnn ?mulr0n ?mul0rn.
Qed.
Lemma mEK K : (forall n, (e n < K)%N) -> mE K = 1%:M.
Proof. by move=> hh; apply/matrixP=> i j; rewrite !mxE hh. Qed.

Lemma mSg_tr : mSg^T = mSg.
Proof.
apply/matrixP=> i j; rewrite mxE [LHS]mxE [RHS]mxE eq_sym; congr (_ + _); last by case: eqP => [->|].
by rewrite -[_ *m _ *m _]tr11 !trmx_mul trmxK mcov_tr mulmxA.
Qed.

Lemma mCE k a n : mC k a n = (mcov k (e n) *m (h n)^T) a 0. Proof. by rewrite mxE. Qed.

(** State l, reached at state k >= l by the transition B, and covering the
    observations before k. *)
Lemma mC_fwd k l : (l <= k)%N -> mC k *m mE l.+1 = T k l *m mC l *m mE l.+1.
Proof.
move=> lk; apply: mulE_eq => a n; rewrite ltnS => hn.
rewrite mCE mul_colsE mulmxA mcov_ge ?(leq_trans hn) // mcov_ge // mulmxA.
by rewrite /T -T_trans.
Qed.

Lemma mCrec k : mC k.+1 *m mE k.+1 = Ap k *m mC k *m mE k.+1.
Proof. by rewrite mC_fwd // /T TS // T_refl mulmx1. Qed.

Lemma dnE' p (X : 'M[F]_(N, p)) n a b : (delta_mx (0 : 'I_1) n *m X) a b = X n b.
Proof. by rewrite -rowE mxE. Qed.

Lemma hC n m : (h n *m mC (e n)) 0 m = (h n *m mcov (e n) (e m) *m (h m)^T) 0 0.
Proof. by rewrite mul_colsE mulmxA. Qed.

Lemma mhE k n : mop k = Some n -> mh k = h n. Proof. by rewrite /mh => ->. Qed.
Lemma mrE k n : mop k = Some n -> mr k = (r n)%:M. Proof. by rewrite /mr => ->. Qed.

Lemma mobs_row k n : mop k = Some n ->
  delta_mx (0 : 'I_1) n *m mSg *m mE k = mh k *m mC k *m mE k.
Proof.
move=> em; rewrite (mhE em); apply: mulE_eq => a m hm; rewrite ord1 dnE'.
rewrite -(mopP em) hC mxE; have -> : (n == m) = false.
  by apply/negP=> /eqP nm; move: hm; rewrite -(mopP em) nm ltnn.
by rewrite mulr0n addr0.
Qed.

Lemma mobs_diag k n : mop k = Some n ->
  delta_mx (0 : 'I_1) n *m mSg *m (delta_mx (0 : 'I_1) n)^T
  = mh k *m mS k *m (mh k)^T + mr k.
Proof.
move=> em; rewrite (mhE em) (mrE em); apply: mx11_eq.
rewrite trmx_delta -colE mxE dnE' mxE eqxx mulr1n -(mopP em) mcov_ge // /T T_refl mul1mx.
by rewrite [RHS]mxE; congr (_ + _); rewrite mxE eqxx.
Qed.

Lemma mobs_col k n : mop k = Some n ->
  mC k *m (delta_mx (0 : 'I_1) n)^T = mS k *m (mh k)^T.
Proof.
move=> em; rewrite (mhE em); apply/matrixP=> a b; rewrite ord1 trmx_delta -colE mxE mCE.
by rewrite (mopP em) mcov_ge // /T T_refl mul1mx.
Qed.

Lemma mC_next k : mC k *m (1%:M - mE k) = mS k *m mphi k *m (1%:M - mE k).
Proof.
apply: mulE'_eq => a n hn.
by rewrite mCE mul_colsE mulmxA mcov_le.
Qed.

Lemma mphi_next k : mC k.+1 *m (1%:M - mE k.+1) = mS k.+1 *m mphi k.+1 *m (1%:M - mE k.+1).
Proof. exact: mC_next. Qed.

Lemma mphi_prev k :
  mC k *m (1%:M - mE k.+1) = mS k *m (Ap k)^T *m mphi k.+1 *m (1%:M - mE k.+1).
Proof.
apply: mulE'_eq => a n hn.
rewrite mCE mul_colsE mulmxA mcov_le ?(ltnW hn) // /T T_pred // trmx_mul.
by rewrite !mulmxA.
Qed.

Lemma mphi_Sg k :
  mE k.+1 *m mSg *m (1%:M - mE k.+1)
  = mE k.+1 *m (mC k)^T *m (Ap k)^T *m mphi k.+1 *m (1%:M - mE k.+1).
Proof.
have -> : mE k.+1 *m (mC k)^T *m (Ap k)^T *m mphi k.+1
        = mE k.+1 *m ((mC k)^T *m (Ap k)^T *m mphi k.+1) by rewrite !mulmxA.
apply: mulE'_eq => i j hj; rewrite !E_mul; case: ltnP => // hi; congr (_ *+ _).
have ij : (i == j) = false.
  by apply/negP=> /eqP ij; move: hi; rewrite ij ltnNge hj.
rewrite mxE ij mulr0n addr0 mul_colsE.
rewrite mcov_le ?(leq_trans (ltnW hi)) //; rewrite ltnS in hi.
have -> : T (e j) (e i) = T (e j) k.+1 *m (Ap k *m T k (e i)).
  by rewrite -TS // /T -T_trans // (leq_trans hi).
rewrite !trmx_mul !mulmxA [in RHS]mxE [in LHS]mxE.
apply: eq_bigr => b _; congr (_ * _).
rewrite [in RHS]mxE [in LHS]mxE; apply: eq_bigr => c _; congr (_ * _).
rewrite [in RHS]mxE [in LHS]mxE; apply: eq_bigr => c' _; congr (_ * _).
rewrite [in RHS]mxE mCE mcov_ge //.
rewrite -[h i *m _ *m _]trmxK [in LHS]mxE; congr ((_ : 'M_(_, _)) _ _).
by rewrite !trmx_mul !trmxK sS mulmxA.
Qed.

End Cov.

(** ** The Kalman filter and smoother of such a chain *)
Section Filter.
Variables (F : realFieldType) (d N K : nat).
Variables (S0 : 'M[F]_d) (Ap Q : nat -> 'M[F]_d).
Variables (h : 'I_N -> 'M[F]_(1, d)) (r : 'I_N -> F) (e : 'I_N -> nat).
Variable y : 'cV[F]_N.
Hypothesis e_inj : injective e.
Hypothesis eK : forall n, (e n < K)%N.
Hypothesis pS0 : psdmx S0.
Hypothesis pQ : forall k, psdmx (Q k).
Hypothesis r0 : forall n, 0 < r n.
Let S := mS S0 Ap Q.
Let C := mC S0 Ap Q h e.
Let Sg := mSg S0 Ap Q h r e.
Let E := @mE F N e.
Let op := mop e.
Variables (mp mf : nat -> 'cV[F]_d) (Pp Pf : nat -> 'M[F]_d) (v Sk : nat -> 'M[F]_1).
Hypothesis mp0 : mp 0%N = 0.
Hypothesis Pp0 : Pp 0%N = S0.
Hypothesis mpS : forall k, (k.+1 < K)%N -> mp k.+1 = Ap k *m mf k.
Hypothesis PpS : forall k, (k.+1 < K)%N ->
  Pp k.+1 = Ap k *m Pf k *m (Ap k)^T + Q k.
Hypothesis fN : forall k, (k < K)%N -> op k = None -> mf k = mp k /\ Pf k = Pp k.
Let Kg k := (solve (Sk k)^T (Pp k *m (mh h e k)^T)^T)^T.
Hypothesis fS : forall k n, (k < K)%N -> op k = Some n ->
  [/\ v k = (y n 0)%:M - h n *m mp k,
      Sk k = h n *m Pp k *m (h n)^T + (r n)%:M,
      mf k = mp k + (solve (Sk k)^T (Pp k *m (h n)^T)^T)^T *m v k &
      Pf k = Pp k - (solve (Sk k)^T (Pp k *m (h n)^T)^T)^T *m Sk k
                    *m ((solve (Sk k)^T (Pp k *m (h n)^T)^T)^T)^T].

Lemma mc_psd k : (k < K)%N -> psdmx (Pp k) /\ psdmx (Pf k).
Proof.
have upd j : (j < K)%N -> psdmx (Pp j) -> psdmx (Pf j).
  move=> hj hp; case em: (op j) => [n|]; last by case: (fN hj em) => _ ->.
  have [_ SE _ ->] := fS hj em.
  apply: (update_psd SE) => //; last exact: ltW.
  by apply: solveTT; apply: (Sk_unit SE) => //.
elim: k => [|k IH] hk.
  have hp : psdmx (Pp 0) by rewrite Pp0.
  by split=> //; apply: upd.
have [_ hf] := IH (ltnW hk).
have hp : psdmx (Pp k.+1) by rewrite PpS //; apply: psdD => //; apply: psd_conj.
by split=> //; apply: upd.
Qed.

Lemma mc_Sk_pos k n : (k < K)%N -> op k = Some n -> 0 < Sk k 0 0.
Proof.
move=> hk em; have [_ SE _ _] := fS hk em.
exact: (Sk_gt0 SE (proj1 (mc_psd hk)) (r0 n)).
Qed.
Lemma mc_Sk_unit k n : (k < K)%N -> op k = Some n -> Sk k \in unitmx.
Proof. by move=> hk em; rewrite unit11 gt_eqF // (mc_Sk_pos hk em). Qed.

Let sS0 : S0^T = S0 := proj1 pS0.
Let sQ k : (Q k)^T = Q k := proj1 (pQ k).
Let sSg : Sg^T = Sg := @mSg_tr F d N S0 Ap Q h r e sS0 sQ.

Lemma mc_fS k n : (k < K)%N -> op k = Some n ->
  [/\ v k = (y n 0)%:M - mh h e k *m mp k,
      Sk k = mh h e k *m Pp k *m (mh h e k)^T + mr r e k,
      Kg k *m Sk k = Pp k *m (mh h e k)^T,
      mf k = mp k + Kg k *m v k &
      Pf k = Pp k - Kg k *m Sk k *m (Kg k)^T].
Proof.
move=> hk em; have [a b c f] := fS hk em.
rewrite /Kg (mhE h em) (mrE r em); split=> //.
by apply: solveTT; apply: mc_Sk_unit em.
Qed.

Let uS k n (hk : (k < K)%N) (em : op k = Some n) : Sk k \in unitmx := mc_Sk_unit hk em.
Let hES k (_ : (k < K)%N) := @mES F N e e_inj k.
Let hEn k n (_ : (k < K)%N) := @mEn F N e k n.
Let hsS k (_ : (k < K)%N) := @sS F d S0 Ap Q sS0 sQ k.
Let hSrec k (_ : (k.+1 < K)%N) : S k.+1 = Ap k *m S k *m (Ap k)^T + Q k := erefl _.
Let hCrec k (_ : (k.+1 < K)%N) := @mCrec F d N S0 Ap Q h e k.
Let hrow k n (_ : (k < K)%N) := @mobs_row F d N S0 Ap Q h r e k n.
Let hdiag k n (_ : (k < K)%N) := @mobs_diag F d N S0 Ap Q h r e k n.
Let hcol k n (_ : (k < K)%N) := @mobs_col F d N S0 Ap Q h e k n.

Lemma mc_filter k : (k < K)%N ->
  at_pred Sg y S C E mp Pp k /\ at_filt Sg y S C E mf Pf k.
Proof.
move=> hk.
exact: (chain_filter sSg (@mE0 F N e) hES hEn hsS hSrec hCrec hrow hdiag hcol mp0 Pp0 mpS PpS
   fN mc_fS uS hk).
Qed.

Lemma mc_det : \det Sg = dets op Sk K.
Proof.
exact: (chain_detSg sSg (@mE0 F N e) hES hEn hsS hSrec hCrec hrow hdiag hcol mp0 Pp0 mpS PpS
   fN mc_fS uS (mEK F eK)).
Qed.

Lemma mc_unit : Sg \in unitmx.
Proof.
exact: (chain_unitSg sSg (@mE0 F N e) hES hEn hsS hSrec hCrec hrow hdiag hcol mp0 Pp0 mpS PpS
   fN mc_fS uS (mEK F eK)).
Qed.

Lemma mc_quad : quads op v Sk K = y^T *m invmx Sg *m y.
Proof.
exact: (chain_quadSg sSg (@mE0 F N e) hES hEn hsS hSrec hCrec hrow hdiag hcol mp0 Pp0 mpS PpS
   fN mc_fS uS (mEK F eK)).
Qed.

(** Smoother. *)
Variables (ms : nat -> 'cV[F]_d) (Ps G : nat -> 'M[F]_d).
Hypothesis ms_last : forall k, k.+1 = K -> ms k = mf k /\ Ps k = Pf k.
Hypothesis GE : forall k, (k.+1 < K)%N -> G k *m Pp k.+1 = Pf k *m (Ap k)^T.
Hypothesis msE : forall k, (k.+1 < K)%N -> ms k = mf k + G k *m (ms k.+1 - mp k.+1).
Hypothesis PsE : forall k, (k.+1 < K)%N -> Ps k = Pf k + G k *m (Ps k.+1 - Pp k.+1) *m (G k)^T.

Lemma mc_smooth k : (k < K)%N ->
  exists W, [/\ W *m Sg = C k, ms k = W *m y & Ps k = S k - W *m (C k)^T].
Proof.
move=> hk.
exact: (chain_smooth sSg (@mE0 F N e) hES hEn hsS hSrec hCrec hrow hdiag hcol mp0 Pp0 mpS PpS
   fN mc_fS uS (mEK F eK) (fun k _ => @mphi_next F d N S0 Ap Q h e k)
   (fun k _ => @mphi_prev F d N S0 Ap Q h e k)
   (fun k _ => @mphi_Sg F d N S0 Ap Q h r e sS0 sQ k) ms_last GE msE PsE hk).
Qed.
End Filter.
