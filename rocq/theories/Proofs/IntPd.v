(** The predicted covariances of the integrated filter are positive definite. *)
From mathcomp Require Import all_ssreflect all_algebra.
From Verif.Prelude Require Import Zmod Psd.
From Verif.Model Require Import Jax Ssm Sequential Integrated.
From Verif.Spec Require Import Gp.
From Verif.Proofs Require Import Gauss Chain KalmanPd ScanLemmas StateCov SeqExact MarkovChain IntBook IntExact.
Set Implicit Arguments.
Unset Strict Implicit.
Unset Printing Implicit Defensive.
Import Order.TTheory GRing.Theory Num.Theory.
Local Open Scope ring_scope.

Section IntPd.
Variables (F : realFieldType) (d : nat).
Variables (A Q : F -> F -> 'M[F]_d) (Hs : seq 'M[F]_(1, d)) (RESET : nat -> 'M[F]_d).
Variables (R y tmid delta : seq F) (inst : seq nat) (P0 : 'M[F]_d).
Let N := size tmid.
Let K := N.*2.
Let t := t_states tmid delta.
Let obs := obsid tmid delta.
Let state := stateid tmid delta.
Let Dt k : F := t`_k.+1 - t`_k.
Hypothesis pP0 : pdmx P0.
Hypothesis uA : forall x, A 0 x \in unitmx.
Hypothesis pQ0 : psdmx (Q 0 0).
Hypothesis pQ : forall k, (k.+1 < K)%N -> psdmx (Q 0 (Dt k)).
Hypothesis Rpos : forall i, (i < N)%N -> 0 < R`_i.
Hypothesis full : forall k v, (k.+1 < K)%N -> nth 0%N state k = 0%N ->
  (RESET (nth 0%N inst (nth 0%N obs k)))^T *m ((A 0 (Dt k))^T *m v) = 0 ->
  qf (Q 0 (Dt k)) v = 0 -> v = 0.
Let out := integrated_kalman_filter A Q Hs RESET R y t obs inst state 0 P0.
Let o i := nth (0, 0, 0, 0, 0, 0) out i.

Lemma ip_pd k : (k < K)%N -> pdmx (o_Pp (o k)).
Proof.
elim: k => [|k IH] hk.
  have [_ e] := @ie_p0 F d A Q Hs RESET R y tmid delta inst P0 hk.
  rewrite /o /out e; apply: pdD => //; apply: pd_conj => //; exact: uA.
have hk' := ltnW hk; have {}IH := IH hk'.
have := @ie_PpS F d A Q Hs RESET R y tmid delta inst P0 k hk.
rewrite -/t -/obs -/state -/out -/(o k) -/(o k.+1) /ie_Ap /ie_Q -/K hk -/(Dt k) /reset_at -/t -/obs -/state.
have := pQ hk; have := @full k; rewrite -/(Dt k).
case e: (nth 0%N state k == 0%N) => hf pq ->.
  apply: pdP.
    by apply: psdD => //; apply: psd_conj; apply: pd_psd.
  move=> v; rewrite qfD qf_conj => /eqP.
  rewrite paddr_eq0 ?(proj2 pq) ?(proj2 (pd_psd IH)) //.
  case/andP=> /eqP /(pd_qf0 IH) e1 /eqP e2.
  by apply: hf => //; [exact/eqP|move: e1; rewrite trmx_mul mulmxA].
rewrite mulmx1; apply: pdD => //; apply: pd_conj; first exact: uA.
have [_ eS _ ->] := @ie_end F d A Q Hs RESET R y tmid delta inst P0 k hk' (negbT e).
have ho : (nth 0%N obs k < N)%N by apply: obs_lt.
apply: (update_pd eS) (IH) (Rpos ho).
by apply: solveTT; apply: (Sk_unit eS (pd_psd IH) (Rpos ho)).
Qed.

Hypothesis N0 : (0 < N)%N.
Hypothesis last_end : nth 0%N state K.-1 != 0%N.
Let sm := integrated_rts_smoother A RESET t obs inst state (map (@o_m F d) out) (map (@o_P F d) out)
     (map (@o_mp F d) out) (map (@o_Pp F d) out).
Variable Sg : 'M[F]_N.
Hypothesis SgE : @ie_Sg F d A Q Hs RESET R tmid delta inst P0 = Sg.
Let C k := @ie_C F d A Q Hs RESET tmid delta inst P0 k.

Lemma ip_smooth k : (k < K)%N ->
  (nth (0, 0) sm k).1 = post_mean (C k) Sg (col_of N y) /\
  (nth (0, 0) sm k).2 = post_cov (@ie_S F d A Q RESET tmid delta inst P0 k) (C k) Sg.
Proof.
move=> hk; have pP := pd_psd pP0.
have [W [e1 e2 e3]] := ie_smooth pP pQ0 pQ Rpos N0 (fun k hk => pd_unit (ip_pd hk)) last_end hk.
have uS : Sg \in unitmx by rewrite -SgE; apply: ie_unit.
rewrite SgE in e1.
have eW : W = C k *m invmx Sg by rewrite -[W](mulmxK uS) e1.
by rewrite /sm e2 e3 eW.
Qed.
End IntPd.
