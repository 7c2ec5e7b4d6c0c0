(** A Kalman update keeps covariances positive definite. *)
From mathcomp Require Import all_ssreflect all_algebra.
From Verif.Prelude Require Import Zmod Psd.
Set Implicit Arguments.
Unset Strict Implicit.
Unset Printing Implicit Defensive.
Import Order.TTheory GRing.Theory Num.Theory.
Local Open Scope ring_scope.

Section KalmanPd.
Variable F : realFieldType.
Variables (d : nat) (P : 'M[F]_d) (h : 'M[F]_(1, d)) (r : F).
Variables (Sk : 'M[F]_1) (K : 'M[F]_(d, 1)).
Hypothesis SkE : Sk = h *m P *m h^T + r%:M.
Hypothesis KS : K *m Sk = P *m h^T.

Lemma Sk_ge : psdmx P -> r <= Sk 0 0.
Proof.
move=> hP; rewrite SkE mxE [X in _ + X]mxE eqxx mulr1n ler_addr.
by apply: psd11_ge0; apply: psd_conj.
Qed.

Lemma Sk_gt0 : psdmx P -> 0 < r -> 0 < Sk 0 0.
Proof. by move=> hP r0; apply: lt_le_trans r0 (Sk_ge hP). Qed.

Lemma Sk_unit : psdmx P -> 0 < r -> Sk \in unitmx.
Proof. by move=> hP r0; rewrite unit11 gt_eqF ?Sk_gt0. Qed.

Lemma joseph : P^T = P ->
  P - K *m Sk *m K^T =
  (1%:M - K *m h) *m P *m (1%:M - K *m h)^T + K *m r%:M *m K^T.
Proof.
move=> sP; rewrite linearB /= trmx1 trmx_mul.
have e1 : P *m h^T *m K^T = K *m Sk *m K^T by rewrite KS.
have e2 : K *m h *m P = K *m Sk *m K^T.
  by have := congr1 trmx e1; rewrite !trmx_mul !trmxK sP tr11 !mulmxA.
have e3 : K *m r%:M *m K^T = K *m Sk *m K^T - K *m h *m P *m h^T *m K^T.
  by rewrite SkE; mxzmod.
by rewrite e3; repeat (progress mxdist); rewrite e1 e2; zmod.
Qed.

Lemma update_psd : psdmx P -> 0 <= r -> psdmx (P - K *m Sk *m K^T).
Proof.
move=> hP r0; rewrite joseph ?(proj1 hP) //.
apply: psdD; apply: psd_conj => //.
by apply: psd11; rewrite mxE eqxx mulr1n.
Qed.

Lemma update_pd : pdmx P -> 0 < r -> pdmx (P - K *m Sk *m K^T).
Proof.
move=> hP r0; apply: pdP; first by apply: update_psd; [apply: pd_psd | apply: ltW].
move=> x; rewrite joseph ?(proj1 hP) // qfD !qf_conj => /eqP.
have pr : pdmx (r%:M : 'M[F]_1) by apply: pd11; rewrite mxE eqxx mulr1n.
rewrite paddr_eq0 ?(proj2 (pd_psd hP)) ?(proj2 (pd_psd pr)) //.
case/andP=> /eqP /(pd_qf0 hP) + /eqP /(pd_qf0 pr) e.
by rewrite linearB /= trmx1 trmx_mul mulmxBl mul1mx -mulmxA e mulmx0 subr0.
Qed.

(** The update only removes variance. *)
Lemma update_le : psdmx P -> 0 < r ->
  psdmx (P - (P - K *m Sk *m K^T)).
Proof.
move=> hP r0; rewrite opprB addrCA subrr addr0; apply: psd_conj.
by apply: psd11; apply: ltW (Sk_gt0 hP r0).
Qed.
End KalmanPd.
