(** Kalman filtering and RTS smoothing of a Gauss-Markov chain are exact
    Gaussian conditioning.

    States u_0, ..., u_{K-1} have prior covariances S k and covariances C k with
    the N observations y (covariance Sg).  State k may carry one observation
    [op k = Some n].  [E k] projects on the observations processed before
    state k.  The hypotheses of the section describe a Gauss-Markov chain; they
    are established for the concrete models elsewhere. *)
From mathcomp Require Import all_ssreflect all_algebra.
From Verif.Prelude Require Import Zmod Psd.
From Verif.Proofs Require Import Gauss.
Set Implicit Arguments.
Unset Strict Implicit.
Unset Printing Implicit Defensive.
Import Order.TTheory GRing.Theory Num.Theory.
Local Open Scope ring_scope.

Section Chain.
Variable F : realFieldType.
Variables (d N K : nat).
Variables (Sg : 'M[F]_N) (y : 'cV[F]_N).
Hypothesis sSg : Sg^T = Sg.
Variables (S : nat -> 'M[F]_d) (C phi : nat -> 'M[F]_(d, N)) (E : nat -> 'M[F]_N).
Variables (Ap Q : nat -> 'M[F]_d).
Variables (op : nat -> option 'I_N) (h : nat -> 'M[F]_(1, d)) (r : nat -> 'M[F]_1).
Let dn (n : 'I_N) : 'M[F]_(1, N) := delta_mx 0 n.

Hypothesis E0 : E 0%N = 0.
Hypothesis ES : forall k, (k < K)%N ->
  E k.+1 = if op k is Some n then E k + (dn n)^T *m dn n else E k.
Hypothesis En : forall k n, (k < K)%N -> op k = Some n -> dn n *m E k = 0.
Hypothesis sS : forall k, (k < K)%N -> (S k)^T = S k.
Hypothesis Srec : forall k, (k.+1 < K)%N ->
  S k.+1 = Ap k *m S k *m (Ap k)^T + Q k.
Hypothesis Crec : forall k, (k.+1 < K)%N ->
  C k.+1 *m E k.+1 = Ap k *m C k *m E k.+1.
Hypothesis obs_row : forall k n, (k < K)%N -> op k = Some n ->
  dn n *m Sg *m E k = h k *m C k *m E k.
Hypothesis obs_diag : forall k n, (k < K)%N -> op k = Some n ->
  dn n *m Sg *m (dn n)^T = h k *m S k *m (h k)^T + r k.
Hypothesis obs_col : forall k n, (k < K)%N -> op k = Some n ->
  C k *m (dn n)^T = S k *m (h k)^T.

(** The filter. *)
Variables (mp mf : nat -> 'cV[F]_d) (Pp Pf : nat -> 'M[F]_d).
Variables (v Sk : nat -> 'M[F]_1) (Kg : nat -> 'M[F]_(d, 1)).
Hypothesis mp0 : mp 0%N = 0.
Hypothesis Pp0 : Pp 0%N = S 0%N.
Hypothesis mpS : forall k, (k.+1 < K)%N -> mp k.+1 = Ap k *m mf k.
Hypothesis PpS : forall k, (k.+1 < K)%N ->
  Pp k.+1 = Ap k *m Pf k *m (Ap k)^T + Q k.
Hypothesis fN : forall k, (k < K)%N -> op k = None -> mf k = mp k /\ Pf k = Pp k.
Hypothesis fS : forall k n, (k < K)%N -> op k = Some n ->
  [/\ v k = (y n 0)%:M - h k *m mp k,
      Sk k = h k *m Pp k *m (h k)^T + r k,
      Kg k *m Sk k = Pp k *m (h k)^T,
      mf k = mp k + Kg k *m v k &
      Pf k = Pp k - Kg k *m Sk k *m (Kg k)^T].
Hypothesis uSk : forall k n, (k < K)%N -> op k = Some n -> Sk k \in unitmx.

Definition at_pred k := exists W,
  winv Sg (E k) (S k) (C k) W (Pp k) /\ mp k = W *m y.
Definition at_filt k := exists W,
  winv Sg (E k.+1) (S k) (C k) W (Pf k) /\ mf k = W *m y.

(** product of S_k and sum of v_k^2 / S_k over the first k states *)
Fixpoint dets k : F :=
  if k is k'.+1 then (if op k' is Some _ then Sk k' 0 0 else 1) * dets k' else 1.
Fixpoint quads k : 'M[F]_1 :=
  if k is k'.+1 then quads k' +
     (if op k' is Some _ then (v k')^T *m invmx (Sk k') *m v k' else 0) else 0.

Lemma isprojE k : (k <= K)%N -> isproj (E k).
Proof.
elim: k => [_|k IH hk]; first by rewrite E0; split; rewrite ?trmx0 ?mulmx0.
have pk := IH (ltnW hk); rewrite ES //; case e: (op k) => [n|] //.
exact: (isproj_upd (erefl _) pk (En hk e) (erefl _)).
Qed.

Lemma pred_filt k : (k < K)%N -> at_pred k ->
  at_filt k
  /\ (forall n, op k = Some n -> exists2 g, v k = g *m y
        & \det (masked Sg (E k.+1)) = Sk k 0 0 * \det (masked Sg (E k))
        /\ forall b q, qinv Sg (E k) y b q -> exists b',
             qinv Sg (E k.+1) y b' (q + (v k)^T *m invmx (Sk k) *m v k)).
Proof.
move=> hk [W [hW mW]]; have pk := isprojE (ltnW hk).
case e: (op k) => [n|]; last first.
  split=> //; exists W; case: (fN hk e) => -> ->; split=> //.
  by rewrite ES // e.
have [vE SE KS mE PE] := fS hk e.
have hS := sS hk; have hrow := obs_row hk e; have hdiag := obs_diag hk e.
have hcol := obs_col hk e; have hu := uSk hk e; have hn := En hk e.
have EE : E k.+1 = E k + (dn n)^T *m dn n by rewrite ES // e.
have [g gE] : {g | g = dn n - h k *m W} by exists (dn n - h k *m W).
have vg : v k = g *m y.
  rewrite vE mW gE mulmxBl mulmxA; congr (_ - _).
  by apply: mx11_eq; rewrite -rowE !mxE.
have U := winv_update sSg (erefl _) pk hW hn hS hrow hdiag hcol SE hu KS gE EE.
split.
  exists (W + Kg k *m g); split; first by rewrite PE.
  by rewrite mE mW vg mulmxDl mulmxA.
move=> _ _; exists g => //; split.
  exact: (det_update sSg (erefl _) pk hW hn hrow hdiag SE gE EE).
move=> b q hq; exists (b + (v k)^T *m invmx (Sk k) *m g).
exact: (qinv_update sSg (erefl _) pk hW hn hrow hdiag SE hu gE EE hq vg).
Qed.

Lemma chain_filter k : (k < K)%N -> at_pred k /\ at_filt k.
Proof.
elim: k => [|k IH] hk.
  have h0 : at_pred 0.
    exists 0; rewrite E0 Pp0 mp0; split; last by rewrite mul0mx.
    exact: winv_init.
  by split=> //; case: (pred_filt hk h0).
have hk' := ltnW hk; have [_ [W [hW mW]]] := IH hk'.
have h1 : at_pred k.+1.
  exists (Ap k *m W); split; last by rewrite mpS // mW mulmxA.
  rewrite PpS //.
  exact: (winv_predict (isprojE hk') hW (Crec hk) (Srec hk)).
by split=> //; case: (pred_filt hk h1).
Qed.

Lemma chain_det k : (k <= K)%N -> \det (masked Sg (E k)) = dets k.
Proof.
elim: k => [_|k IH hk] /=.
  by rewrite E0 /masked mulmx0 subr0 add0r det1.
have [hp _] := chain_filter hk; have [_ hd] := pred_filt hk hp.
case e: (op k) => [n|].
  by have [g _ [-> _]] := hd _ e; rewrite IH // ltnW.
by rewrite ES // e mul1r IH // ltnW.
Qed.

Lemma chain_quad k : (k <= K)%N -> exists b, qinv Sg (E k) y b (quads k).
Proof.
elim: k => [_|k IH hk] /=.
  by exists 0; rewrite E0; split; rewrite ?mul0mx ?mulmx0.
have [hp _] := chain_filter hk; have [_ hd] := pred_filt hk hp.
have [b hb] := IH (ltnW hk).
case e: (op k) => [n|].
  by have [g _ [_ hq]] := hd _ e; apply: (hq b).
by exists b; rewrite ES // e addr0.
Qed.

(** All observations have been processed at the end. *)
Hypothesis EK : E K = 1%:M.

Lemma masked1 : masked Sg 1%:M = Sg.
Proof. by rewrite /masked mul1mx mulmx1 subrr addr0. Qed.

Lemma dets_neq0 k : (k <= K)%N -> dets k != 0.
Proof.
elim: k => [_|k IH hk] /=; first exact: oner_neq0.
rewrite mulf_neq0 ?IH ?(ltnW hk) //; case e: (op k) => [n|]; last exact: oner_neq0.
by rewrite -unit11 (uSk hk e).
Qed.

Lemma chain_detSg : \det Sg = dets K.
Proof. by rewrite -(chain_det (leqnn K)) EK masked1. Qed.

Lemma chain_unitSg : Sg \in unitmx.
Proof. by rewrite unitmxE chain_detSg unitfE dets_neq0. Qed.

Lemma chain_quadSg : quads K = y^T *m invmx Sg *m y.
Proof.
have [b] := chain_quad (leqnn K); rewrite EK => -[_].
rewrite !mulmx1 => e ->; congr (_ *m _).
by rewrite -e mulmxK ?chain_unitSg.
Qed.

(** The smoother. *)
Hypothesis phi_next : forall k, (k.+1 < K)%N ->
  C k.+1 *m (1%:M - E k.+1) = S k.+1 *m phi k.+1 *m (1%:M - E k.+1).
Hypothesis phi_prev : forall k, (k.+1 < K)%N ->
  C k *m (1%:M - E k.+1) = S k *m (Ap k)^T *m phi k.+1 *m (1%:M - E k.+1).
Hypothesis phi_Sg : forall k, (k.+1 < K)%N ->
  E k.+1 *m Sg *m (1%:M - E k.+1)
  = E k.+1 *m (C k)^T *m (Ap k)^T *m phi k.+1 *m (1%:M - E k.+1).
Variables (ms : nat -> 'cV[F]_d) (Ps : nat -> 'M[F]_d) (G : nat -> 'M[F]_d).
Hypothesis ms_last : forall k, k.+1 = K -> ms k = mf k /\ Ps k = Pf k.
Hypothesis GE : forall k, (k.+1 < K)%N -> G k *m Pp k.+1 = Pf k *m (Ap k)^T.
Hypothesis msE : forall k, (k.+1 < K)%N ->
  ms k = mf k + G k *m (ms k.+1 - mp k.+1).
Hypothesis PsE : forall k, (k.+1 < K)%N ->
  Ps k = Pf k + G k *m (Ps k.+1 - Pp k.+1) *m (G k)^T.

Lemma smooth_step k Wf : (k.+1 < K)%N ->
  winv Sg (E k.+1) (S k) (C k) Wf (Pf k) -> mf k = Wf *m y ->
  forall Wn, Wn *m Sg = C k.+1 -> ms k.+1 = Wn *m y ->
  Ps k.+1 = S k.+1 - Wn *m (C k.+1)^T ->
  exists W, [/\ W *m Sg = C k, ms k = W *m y & Ps k = S k - W *m (C k)^T].
Proof.
move=> hk hWf hmf Wn hWn hms hPs; have hk' := ltnW hk.
exists (Wf + G k *m (Wn - Ap k *m Wf)); split.
- exact: (smooth_weights (erefl _) hWf (Crec hk) (Srec hk) (phi_next hk)
            (phi_prev hk) (phi_Sg hk) (PpS hk) (GE hk) hWn).
- rewrite msE // hms mpS // hmf mulmxDl -[G k *m _ *m y]mulmxA mulmxBl.
  by rewrite -[Ap k *m Wf *m y]mulmxA.
- rewrite PsE //.
  exact: (smooth_cov sSg (erefl _) (isprojE hk') hWf (Crec hk) (Srec hk) (phi_next hk)
            (phi_prev hk) (phi_Sg hk) (PpS hk) (GE hk) hWn hPs).
Qed.

Lemma chain_smooth k : (k < K)%N ->
  exists W, [/\ W *m Sg = C k, ms k = W *m y & Ps k = S k - W *m (C k)^T].
Proof.
move=> hk; have [n hn] : {n | n = K - k.+1}%N by exists (K - k.+1)%N.
elim: n k hk hn => [|n IH] k hk hn.
  have eK : k.+1 = K by apply/eqP; rewrite eqn_leq hk /= -subn_eq0 -hn.
  have [-> ->] := ms_last eK.
  have [_ [W [[WE WSE PE] mW]]] := chain_filter hk.
  exists W; split=> //.
  by move: WSE; rewrite eK EK !mulmx1.
have hk1 : (k.+1 < K)%N by rewrite -subn_gt0 -hn.
have hn1 : n = (K - k.+2)%N by rewrite subnS -hn.
have [Wn [a b c]] := IH _ hk1 hn1.
have [_ [Wf [hWf mWf]]] := chain_filter hk.
exact: (smooth_step hk1 hWf mWf a b c).
Qed.

End Chain.
