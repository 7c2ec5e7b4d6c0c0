(** The sequential integrated solver conditions exactly on the chain of states it defines. *)
From mathcomp Require Import all_ssreflect all_algebra.
From Verif.Prelude Require Import Zmod Psd.
From Verif.Model Require Import Jax Ssm Sequential Integrated.
From Verif.Spec Require Import Gp.
From Verif.Proofs Require Import Gauss Chain KalmanPd ScanLemmas StateCov SeqExact MarkovChain IntBook.
Set Implicit Arguments.
Unset Strict Implicit.
Unset Printing Implicit Defensive.
Import Order.TTheory GRing.Theory Num.Theory.
Local Open Scope ring_scope.

Lemma detsE' (F : realFieldType) N (op : nat -> option 'I_N) (Sk : nat -> 'M[F]_1) k :
  dets op Sk k = \prod_(i <- iota 0 k | isSome (op i)) Sk i 0 0.
Proof.
elim: k => [|k IH]; first by rewrite big_nil.
rewrite -[k.+1]addn1 iotaD big_cat /= -IH big_cons big_nil add0n addn1 /= mulrC.
by case: (op k) => [n|] /=; rewrite ?mulr1.
Qed.
Lemma quadsE' (F : realFieldType) N (op : nat -> option 'I_N) (v Sk : nat -> 'M[F]_1) k :
  quads op v Sk k 0 0 = \sum_(i <- iota 0 k | isSome (op i)) (v i 0 0) ^+ 2 / Sk i 0 0.
Proof.
elim: k => [|k IH]; first by rewrite big_nil mxE.
rewrite -[k.+1]addn1 iotaD big_cat /= -IH big_cons big_nil add0n addn1 /= mxE.
case: (op k) => [n|] /=; last by rewrite mxE.
by rewrite addr0; congr (_ + _); rewrite !mul11E mxE inv11 expr2 mulrAC.
Qed.

Section IntExact.
Variables (F : realFieldType) (d : nat).
Variables (A Q : F -> F -> 'M[F]_d) (Hs : seq 'M[F]_(1, d)) (RESET : nat -> 'M[F]_d).
Variables (R y tmid delta : seq F) (inst : seq nat) (P0 : 'M[F]_d).
Let N := size tmid.
Let K := N.*2.
Let t := t_states tmid delta.
Let obs := obsid tmid delta.
Let state := stateid tmid delta.
Let Dt k : F := t`_k.+1 - t`_k.
Hypothesis pP0 : psdmx P0.
Hypothesis pQ0 : psdmx (Q 0 0).
Hypothesis pQ : forall k, (k.+1 < K)%N -> psdmx (Q 0 (Dt k)).
Hypothesis Rpos : forall i, (i < N)%N -> 0 < R`_i.
Hypothesis ysize : size y = N.

Let step := ikf_step A Q Hs RESET R y t obs inst state.
Let c0 : 'cV[F]_d * 'M[F]_d := (0, P0).
Let cr i := carry_of step c0 (iota 0 i).
Let out := integrated_kalman_filter A Q Hs RESET R y t obs inst state 0 P0.
Let o0 : kf_out F d := (0, 0, 0, 0, 0, 0).
Let o i := nth o0 out i.

Lemma ie_size_out : size out = K.
Proof. by rewrite /out /integrated_kalman_filter lax_scan_size size_iota t_size. Qed.

Lemma ie_oE i : (i < K)%N -> o i = (step (cr i) i).2.
Proof.
move=> hi; rewrite /o /out /integrated_kalman_filter /arange t_size.
rewrite (lax_scan_nth _ _ 0%N) ?size_iota // nth_iota // add0n.
by rewrite take_iota0 // ltnW.
Qed.

Lemma ie_crS i : (i < K)%N -> cr i.+1 = (o_m (o i), o_P (o i)).
Proof.
move=> hi; rewrite /cr carry_of_iotaS -/(cr i) ie_oE //.
by rewrite /step /ikf_step; case: (cr i) => m P; case: ifP.
Qed.

Definition ie_dt i : F := if (0 < i)%N then t`_i - t`_i.-1 else 0.

Lemma ie_pE i : (i < K)%N ->
  o_mp (o i) = A 0 (ie_dt i) *m (cr i).1
  /\ o_Pp (o i) = A 0 (ie_dt i) *m (cr i).2 *m (A 0 (ie_dt i))^T + Q 0 (ie_dt i).
Proof. by move=> hi; rewrite ie_oE // /step /ikf_step; case: (cr i) => m P; case: ifP. Qed.

Definition reset_at k := if nth 0%N state k == 0%N then RESET (nth 0%N inst (nth 0%N obs k)) else 1%:M.

Lemma ie_start i : (i < K)%N -> nth 0%N state i = 0%N ->
  o_m (o i) = reset_at i *m o_mp (o i)
  /\ o_P (o i) = reset_at i *m o_Pp (o i) *m (reset_at i)^T.
Proof.
move=> hi e; rewrite /reset_at e eqxx ie_oE // /step /ikf_step.
by case: (cr i) => m P; rewrite e eqxx.
Qed.

Definition ie_H k : 'M[F]_(1, d) := nth 0 Hs (nth 0%N obs k).
Definition ie_gain i : 'M[F]_(d, 1) :=
  (solve (o_S (o i))^T (o_Pp (o i) *m (ie_H i)^T)^T)^T.

Lemma ie_end i : (i < K)%N -> nth 0%N state i != 0%N ->
  [/\ o_v (o i) = (y`_(nth 0%N obs i))%:M - ie_H i *m o_mp (o i),
      o_S (o i) = ie_H i *m o_Pp (o i) *m (ie_H i)^T + (R`_(nth 0%N obs i))%:M,
      o_m (o i) = o_mp (o i) + ie_gain i *m o_v (o i) &
      o_P (o i) = o_Pp (o i) - ie_gain i *m o_S (o i) *m (ie_gain i)^T].
Proof.
move=> hi e; rewrite /ie_gain /ie_H ie_oE // /step /ikf_step.
by case: (cr i) => m P; rewrite (negbTE e).
Qed.

(** The chain. *)
Definition ie_S0 : 'M[F]_d := A 0 0 *m P0 *m (A 0 0)^T + Q 0 0.
Definition ie_Ap k : 'M[F]_d := A 0 (Dt k) *m reset_at k.
Definition ie_Q k : 'M[F]_d := if (k.+1 < K)%N then Q 0 (Dt k) else 0.
Definition ie_h (n : 'I_N) : 'M[F]_(1, d) := nth 0 Hs n.
Definition ie_r (n : 'I_N) : F := R`_n.
Definition ie_e (n : 'I_N) : nat := en tmid delta n.
Definition ie_Sg : 'M[F]_N := mSg ie_S0 ie_Ap ie_Q ie_h ie_r ie_e.
Definition ie_C : nat -> 'M[F]_(d, N) := mC ie_S0 ie_Ap ie_Q ie_h ie_e.
Definition ie_S : nat -> 'M[F]_d := mS ie_S0 ie_Ap ie_Q.
Let mf k := if nth 0%N state k == 0%N then o_mp (o k) else o_m (o k).
Let Pf k := if nth 0%N state k == 0%N then o_Pp (o k) else o_P (o k).
Let yv : 'cV[F]_N := col_of N y.
Let op := mop ie_e.

Lemma ie_inj : injective ie_e.
Proof.
move=> n n' e; apply: val_inj.
exact: (@en_inj _ tmid delta n n' (ltn_ord n) (ltn_ord n') e).
Qed.
Lemma ie_eK n : (ie_e n < K)%N. Proof. exact: en_lt. Qed.
Lemma ie_pS0 : psdmx ie_S0. Proof. by apply: psdD => //; apply: psd_conj. Qed.
Lemma ie_pQ k : psdmx (ie_Q k).
Proof. by rewrite /ie_Q; case: ifP => [/pQ //|_]; apply: psd0. Qed.
Lemma ie_r0 n : 0 < ie_r n. Proof. exact: Rpos. Qed.

Lemma ie_opS k n : (k < K)%N -> op k = Some n -> nth 0%N state k != 0%N /\ nth 0%N obs k = n.
Proof.
move=> hk /mopP <-; have [-> -> _] := en_spec delta (ltn_ord n).
by [].
Qed.
Lemma ie_opN k : (k < K)%N -> op k = None -> nth 0%N state k = 0%N.
Proof.
move=> hk em; apply/eqP/negPn/negP=> hs.
have := mopN em (Ordinal (obs_lt delta hk)).
by rewrite /ie_e /= -(is_end hk hs) eqxx.
Qed.
Lemma ie_op k : (k < K)%N -> isSome (op k) = (nth 0%N state k != 0%N).
Proof.
move=> hk; case em: (op k) => [n|] /=; first by case: (ie_opS hk em) => ->.
by rewrite (ie_opN hk em).
Qed.

Lemma ie_mf k : (k < K)%N -> o_m (o k) = reset_at k *m mf k.
Proof.
move=> hk; rewrite /mf; case: eqP => [e|/eqP e]; first by case: (ie_start hk e).
by rewrite /reset_at (negbTE e) mul1mx.
Qed.
Lemma ie_Pf k : (k < K)%N -> o_P (o k) = reset_at k *m Pf k *m (reset_at k)^T.
Proof.
move=> hk; rewrite /Pf; case: eqP => [e|/eqP e]; first by case: (ie_start hk e).
by rewrite /reset_at (negbTE e) trmx1 mul1mx mulmx1.
Qed.

Lemma ie_mpS k : (k.+1 < K)%N -> o_mp (o k.+1) = ie_Ap k *m mf k.
Proof.
move=> hk; have hk' := ltnW hk; have [-> _] := ie_pE hk.
by rewrite ie_crS // /ie_dt /= ie_mf // mulmxA.
Qed.
Lemma ie_PpS k : (k.+1 < K)%N ->
  o_Pp (o k.+1) = ie_Ap k *m Pf k *m (ie_Ap k)^T + ie_Q k.
Proof.
move=> hk; have hk' := ltnW hk; have [_ ->] := ie_pE hk.
by rewrite ie_crS // /ie_dt /= ie_Pf // /ie_Ap /ie_Q hk trmx_mul !mulmxA.
Qed.
Lemma ie_p0 : (0 < K)%N -> o_mp (o 0) = 0 /\ o_Pp (o 0) = ie_S0.
Proof. by move=> h; have [-> ->] := ie_pE h; rewrite /cr /= mulmx0. Qed.

Lemma ie_fN k : (k < K)%N -> op k = None -> mf k = o_mp (o k) /\ Pf k = o_Pp (o k).
Proof. by move=> hk em; rewrite /mf /Pf (ie_opN hk em) eqxx. Qed.

Lemma ie_fS k n : (k < K)%N -> op k = Some n ->
  let K_ := (solve (o_S (o k))^T (o_Pp (o k) *m (ie_h n)^T)^T)^T in
  [/\ o_v (o k) = (yv n 0)%:M - ie_h n *m o_mp (o k),
      o_S (o k) = ie_h n *m o_Pp (o k) *m (ie_h n)^T + (ie_r n)%:M,
      mf k = o_mp (o k) + K_ *m o_v (o k) &
      Pf k = o_Pp (o k) - K_ *m o_S (o k) *m K_^T].
Proof.
move=> hk em /=; have [hs hn] := ie_opS hk em; have [] := ie_end hk hs.
rewrite /ie_gain /ie_H hn /mf /Pf (negbTE hs) => a b c e.
by split=> //; rewrite a mxE.
Qed.


Section NonEmpty.
Hypothesis N0 : (0 < N)%N.
Lemma ie_K0 : (0 < K)%N. Proof. by rewrite double_gt0. Qed.

Lemma ie_psd k : (k < K)%N -> psdmx (o_Pp (o k)) /\ psdmx (Pf k).
Proof.
have [m0 p0] := ie_p0 ie_K0.
exact: (mc_psd ie_pS0 ie_pQ ie_r0 p0 ie_PpS ie_fN ie_fS).
Qed.

Lemma ie_filter k : (k < K)%N ->
  at_pred ie_Sg yv ie_S ie_C (mE F ie_e) (fun k => o_mp (o k)) (fun k => o_Pp (o k)) k
  /\ at_filt ie_Sg yv ie_S ie_C (mE F ie_e) mf Pf k.
Proof.
have [m0 p0] := ie_p0 ie_K0.
exact: (mc_filter ie_inj ie_pS0 ie_pQ ie_r0 m0 p0 ie_mpS ie_PpS ie_fN ie_fS).
Qed.

Lemma ie_Spos k : (k < K)%N -> nth 0%N state k != 0%N -> 0 < o_S (o k) 0 0.
Proof.
move=> hk hs; have [m0 p0] := ie_p0 ie_K0.
have : isSome (op k) by rewrite ie_op.
case em: (op k) => [n|] // _.
exact: (mc_Sk_pos ie_pS0 ie_pQ ie_r0 p0 ie_PpS ie_fN ie_fS hk em).
Qed.

Let ends := ends tmid delta.
Lemma ends_op : ends = [seq i <- iota 0 K | isSome (op i)].
Proof.
rewrite /ends endsE; apply: eq_in_filter => i; rewrite mem_iota add0n => /andP[_ h].
by rewrite ie_op // state_nth //; case: odd.
Qed.
Lemma ends_in i : i \in ends -> (i < K)%N /\ nth 0%N state i != 0%N.
Proof.
rewrite ends_op mem_filter mem_iota add0n => /andP[h1 /andP[_ h2]].
by rewrite -ie_op.
Qed.

Lemma ie_det : \det ie_Sg = \prod_(i <- ends) o_S (o i) 0 0.
Proof.
have [m0 p0] := ie_p0 ie_K0; rewrite ends_op big_filter -detsE'.
exact: (mc_det ie_inj ie_eK ie_pS0 ie_pQ ie_r0 m0 p0 ie_mpS ie_PpS ie_fN ie_fS).
Qed.
Lemma ie_unit : ie_Sg \in unitmx.
Proof.
have [m0 p0] := ie_p0 ie_K0.
exact: (mc_unit ie_inj ie_eK ie_pS0 ie_pQ ie_r0 m0 p0 ie_mpS ie_PpS ie_fN ie_fS).
Qed.
Lemma ie_quad : (yv^T *m invmx ie_Sg *m yv) 0 0
  = \sum_(i <- ends) (o_v (o i) 0 0) ^+ 2 / o_S (o i) 0 0.
Proof.
have [m0 p0] := ie_p0 ie_K0; rewrite ends_op big_filter -quadsE'.
by rewrite (mc_quad ie_inj ie_eK ie_pS0 ie_pQ ie_r0 m0 p0 ie_mpS ie_PpS ie_fN ie_fS).
Qed.

(** ** The smoother *)
Let sm := integrated_rts_smoother A RESET t obs inst state (map (@o_m F d) out) (map (@o_P F d) out)
     (map (@o_mp F d) out) (map (@o_Pp F d) out).
Let s0 : 'cV[F]_d * 'M[F]_d := (0, 0).
Let sh i := nth s0 sm i.
Let rstep := irts_step A RESET t obs inst state (map (@o_m F d) out) (map (@o_P F d) out)
     (map (@o_mp F d) out) (map (@o_Pp F d) out).

Lemma ie_rstep_ff c i : (rstep c i).2 = (rstep c i).1.
Proof. by case: c. Qed.
Lemma ie_smE : sm = backward rstep (last 0 (map (@o_m F d) out), last 0 (map (@o_P F d) out)) K.-1.
Proof. by rewrite /sm /integrated_rts_smoother /backward /arange_down t_size subn1. Qed.
Lemma ie_size_sm : size sm = K.
Proof. by rewrite ie_smE size_backward prednK // ie_K0. Qed.
Lemma ie_nth_out T (f : kf_out F d -> T) x i : (i < K)%N -> nth x (map f out) i = f (o i).
Proof. by move=> hi; rewrite (nth_map o0) ?ie_size_out. Qed.
Lemma ie_last_out T (f : kf_out F d -> T) x : last x (map f out) = f (o K.-1).
Proof.
rewrite -(nth_last x) size_map ie_size_out ie_nth_out //.
by rewrite prednK // ie_K0.
Qed.
Lemma ie_sh_last : sh K.-1 = (o_m (o K.-1), o_P (o K.-1)).
Proof. by rewrite /sh ie_smE backward_last !ie_last_out. Qed.

Definition ie_G i : 'M[F]_d :=
  (solve (o_Pp (o i.+1))^T (Pf i *m (ie_Ap i)^T)^T)^T.

Lemma ie_sh_next i : (i.+1 < K)%N ->
  (sh i).1 = mf i + ie_G i *m ((sh i.+1).1 - o_mp (o i.+1))
  /\ (sh i).2 = Pf i + ie_G i *m ((sh i.+1).2 - o_Pp (o i.+1)) *m (ie_G i)^T.
Proof.
move=> hi; rewrite /sh ie_smE backward_nth; last first.
    by case: (K) hi.
  exact: ie_rstep_ff.
case: (nth _ _ i.+1) => mh Ph; rewrite /rstep /irts_step /= !ie_nth_out ?(ltnW hi) //.
rewrite /ie_G /mf /Pf /ie_Ap /reset_at; case: ifP => // _.
by rewrite mulmx1.
Qed.

(** What smoothing needs: invertible predicted covariances and an end as the last state. *)
Hypothesis uPp : forall k, (k.+1 < K)%N -> o_Pp (o k.+1) \in unitmx.
Hypothesis last_end : nth 0%N state K.-1 != 0%N.

Lemma ie_GE i : (i.+1 < K)%N -> ie_G i *m o_Pp (o i.+1) = Pf i *m (ie_Ap i)^T.
Proof. by move=> hi; apply: solveTT; apply: uPp. Qed.

Lemma ie_smooth k : (k < K)%N ->
  exists W, [/\ W *m ie_Sg = ie_C k, (sh k).1 = W *m yv & (sh k).2 = ie_S k - W *m (ie_C k)^T].
Proof.
have [m0 p0] := ie_p0 ie_K0.
have lst j : j.+1 = K -> (sh j).1 = mf j /\ (sh j).2 = Pf j.
  by move=> e; have := ie_sh_last; rewrite /mf /Pf; move: last_end; rewrite -e /= => /negbTE -> ->.
exact: (mc_smooth ie_inj ie_eK ie_pS0 ie_pQ ie_r0 m0 p0 ie_mpS ie_PpS ie_fN ie_fS lst ie_GE
  (fun i hi => proj1 (ie_sh_next hi)) (fun i hi => proj2 (ie_sh_next hi))).
Qed.
End NonEmpty.
End IntExact.
