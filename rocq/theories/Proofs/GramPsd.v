(** The covariance function of a stationary state-space model is positive
    semidefinite on every list of times. *)
From mathcomp Require Import all_ssreflect all_algebra.
From Verif.Prelude Require Import Psd Zmod.
From Verif.Spec Require Import Gp Markov.
From Verif.Model Require Import Ssm.
From Verif.Proofs Require Import StateCov.
Set Implicit Arguments.
Unset Strict Implicit.
Unset Printing Implicit Defensive.
Import Order.TTheory GRing.Theory Num.Theory.
Local Open Scope ring_scope.

Section Gram.
Variables (F : realFieldType) (k : ssm F) (vk : valid_ssm k).
Let d := sdim k.
(** A weighted state: the linear form c^T x(t). *)
Let wst := (F * 'cV[F]_d)%type.
Implicit Types (x y : wst) (l : seq wst).

Definition cv x y : F := (x.2^T *m state_cov k x.1 y.1 *m y.2) 0 0.
Definition cvl l1 l2 : F := \sum_(x <- l1) \sum_(y <- l2) cv x y.


Lemma cvC x y : cv x y = cv y x.
Proof.
rewrite /cv -[in RHS](tr11 (_ *m _)) !trmx_mul trmxK (sc_tr vk) mulmxA //.
Qed.

Lemma cvlC l1 l2 : cvl l1 l2 = cvl l2 l1.
Proof.
rewrite /cvl exchange_big /=; apply: eq_bigr => x _; apply: eq_bigr => y _; exact: cvC.
Qed.

Lemma cvlDl l1 l2 l : cvl (l1 ++ l2) l = cvl l1 l + cvl l2 l.
Proof. by rewrite /cvl big_cat. Qed.
Lemma cvl_consl x l1 l : cvl (x :: l1) l = cvl [:: x] l + cvl l1 l.
Proof. exact: (cvlDl [:: x]). Qed.
Lemma cvl_consr x l1 l : cvl l (x :: l1) = cvl l [:: x] + cvl l l1.
Proof. by rewrite !(cvlC l) cvl_consl. Qed.

Lemma cvl1 x l : cvl [:: x] l = \sum_(y <- l) cv x y.
Proof. by rewrite /cvl big_seq1. Qed.

Lemma cv_addl (t : F) (a b : 'cV[F]_d) y : cv (t, a + b) y = cv (t, a) y + cv (t, b) y.
Proof. by rewrite /cv /= linearD /= !mulmxDl mxE. Qed.

Lemma cvl_merge (t : F) (a b : 'cV[F]_d) l : cvl [:: (t, a + b)] l = cvl [:: (t, a)] l + cvl [:: (t, b)] l.
Proof. by rewrite !cvl1 -big_split; apply: eq_bigr => y _; apply: cv_addl. Qed.

Lemma cvl_mergel (t : F) (a b : 'cV[F]_d) l1 l :
  cvl ((t, a + b) :: l1) l = cvl ((t, a) :: (t, b) :: l1) l.
Proof. by rewrite cvl_consl cvl_merge [RHS]cvl_consl [X in _ = _ + X]cvl_consl addrA. Qed.
Lemma cvl_merger (t : F) (a b : 'cV[F]_d) l1 l :
  cvl l ((t, a + b) :: l1) = cvl l ((t, a) :: (t, b) :: l1).
Proof. by rewrite !(cvlC l) cvl_mergel. Qed.

(** Moving a weighted state back to an earlier time. *)
Lemma cv_back (t s : F) (c : 'cV[F]_d) y : y.1 <= s -> s <= t ->
  cv (t, c) y = cv (s, (strans k 0 (t - s))^T *m c) y.
Proof. by move=> h1 h2; rewrite /cv /= (sc_fwd vk h1 h2) trmx_mul trmxK !mulmxA. Qed.

Lemma cv_self (t : F) (c : 'cV[F]_d) : cv (t, c) (t, c) = qf (spinf k) c.
Proof. by rewrite /cv /= (sc_refl vk). Qed.

Lemma cvl_ge0_sorted n l : (size l <= n)%N -> sorted (fun a b : F => b <= a) (unzip1 l) ->
  0 <= cvl l l.
Proof.
elim: n l => [|n IH] [|[t c] [|[s e] l]] //=.
- by rewrite /cvl big_nil lexx.
- by rewrite /cvl big_nil lexx.
- move=> _ _; rewrite cvl1 big_seq1 cv_self.
  by have [_] := pd_psd (vs_pinf vk); apply.
move=> hn /= /andP [hst hs].
set y := (s, e); set x := (t, c).
have tr : transitive (fun a b : F => b <= a) by move=> a b c' h1 h2; apply: le_trans h2 h1.
have hall : all (fun a => a <= s) (unzip1 (y :: l)).
  by rewrite /= lexx /=; apply: order_path_min hs.
pose x' : wst := (s, (strans k 0 (t - s))^T *m c).
have e1 : cvl [:: x] (y :: l) = cvl [:: x'] (y :: l).
  rewrite !cvl1 big_seq [RHS]big_seq; apply: eq_bigr => z hz; apply: cv_back => //.
  by move/allP: hall; apply; apply: map_f.
have e2 : cvl [:: x] [:: x] = cvl [:: x'] [:: x'] + qf (snoise k 0 (t - s)) c.
  have h0 : 0 <= t - s by rewrite subr_ge0.
  rewrite !cvl1 !big_seq1 !cv_self (vs_noise vk h0) qfB qf_conj.
  by rewrite addrC subrK.
have e3 : cvl (x :: y :: l) (x :: y :: l)
  = cvl (x' :: y :: l) (x' :: y :: l) + qf (snoise k 0 (t - s)) c.
  rewrite !(cvl_consl _ (y :: l)) !(cvl_consr _ (y :: l)) e2 e1.
  rewrite (cvlC (y :: l) [:: x]) (cvlC (y :: l) [:: x']) e1 -!addrA; congr (_ + _).
  by rewrite addrC !addrA.
rewrite e3; apply: addr_ge0; last first.
  have h0 : 0 <= t - s by rewrite subr_ge0.
  by have [_] := vs_qpsd vk h0; apply.
rewrite -cvl_mergel -cvl_merger; apply: IH => //=.
Qed.

Lemma cvl_perm l1 l2 : perm_eq l1 l2 -> cvl l1 l1 = cvl l2 l2.
Proof.
move=> h; rewrite /cvl (perm_big _ h) /=; apply: eq_bigr => x _.
exact: perm_big.
Qed.

Lemma cvl_ge0 l : 0 <= cvl l l.
Proof.
pose le (a b : wst) := b.1 <= a.1.
have h : perm_eq (sort le l) l by rewrite perm_sort.
rewrite -(cvl_perm h); apply: (@cvl_ge0_sorted (size (sort le l))) => //.
rewrite sorted_map; apply: sort_sorted => a b; rewrite /le; exact: le_total.
Qed.

Lemma gram_psd (t : seq F) : psdmx (gram 0 (obs_cov k) t).
Proof.
split.
  by apply/matrixP => i j; rewrite !mxE (obs_cov_sym vk).
move=> x.
pose l := [seq (t`_i, x i 0 *: (sobs k t`_i)^T) | i : 'I_(size t)].
suff -> : qf (gram 0 (obs_cov k) t) x = cvl l l by apply: cvl_ge0.
rewrite /qf -mulmxA mxE /cvl /l big_image; apply: eq_bigr => i _.
rewrite !mxE big_image mulr_sumr; apply: eq_bigr => j _.
rewrite /cv /=; have -> (a : F) (h : 'M[F]_(1, d)) : (a *: h^T)^T = a *: h.
  by rewrite linearZ /= trmxK.
rewrite -!scalemxAl -scalemxAr [RHS]mxE [X in _ = _ * X]mxE mxE -/(obs_cov _ _ _).
by congr (_ * _); rewrite mulrC.
Qed.

End Gram.
