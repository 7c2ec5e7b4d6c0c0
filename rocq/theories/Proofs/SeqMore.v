(** More about the sequential solver: observation space, variance inequalities. *)
From mathcomp Require Import all_ssreflect all_algebra.
From Verif.Prelude Require Import Psd Zmod.
From Verif.Spec Require Import Gp Markov.
From Verif.Model Require Import Jax Ssm Sequential.
From Verif.Proofs Require Import StateCov GramPsd GpExt SeqExact.
Set Implicit Arguments.
Unset Strict Implicit.
Unset Printing Implicit Defensive.
Import Order.TTheory GRing.Theory Num.Theory.
Local Open Scope ring_scope.

Section Obs.
Variables (F : realFieldType) (k : ssm F).
Hypothesis vk : valid_ssm k.
Let d := sdim k.
Variables (t R : seq F).
Let N := size t.
Let Pinf : 'M[F]_d := spinf k.

Lemma row_Cst (h : 'M[F]_(1, d)) s :
  h *m Cst k t s = \row_j (h *m state_cov k s t`_j *m (sobs k t`_j)^T) 0 0.
Proof. by apply/matrixP => i j; rewrite ord1 mul_colsE mulmxA [RHS]mxE. Qed.

Lemma obs_Cst s : sobs k s *m Cst k t s = cross 0 (obs_cov k) s t.
Proof. by rewrite row_Cst. Qed.

(** Covariance of a linear form of the state at s and of the data. *)
Lemma joint_ge0 s (a : 'cV[F]_d) (x : 'cV[F]_N) :
  0 <= qf Pinf a + (a^T *m Cst k t s *m x) 0 0 *+ 2 + qf (gram 0 (obs_cov k) t) x.
Proof.
pose l := [seq (t`_i, x i 0 *: (sobs k t`_i)^T) | i : 'I_(size t)].
have trZ (b : F) (h : 'M[F]_(1, d)) : (b *: h^T)^T = b *: h by rewrite linearZ /= trmxK.
have e1 : qf (gram 0 (obs_cov k) t) x = cvl l l.
  rewrite /qf -mulmxA mxE /cvl /l big_image; apply: eq_bigr => i _.
  rewrite !mxE big_image mulr_sumr; apply: eq_bigr => j _.
  rewrite /cv /= trZ -!scalemxAl -scalemxAr [RHS]mxE [X in _ = _ * X]mxE mxE -/(obs_cov _ _ _).
  by congr (_ * _); rewrite mulrC.
have e2 : (a^T *m Cst k t s *m x) 0 0 = cvl [:: (s, a)] l.
  rewrite cvl1 mxE /l big_image; apply: eq_bigr => j _.
  by rewrite mul_colsE /cv /= -scalemxAr [RHS]mxE mulrC mulmxA.
rewrite e1 e2.
suff -> : qf Pinf a + cvl [:: (s, a)] l *+ 2 + cvl l l = cvl ((s, a) :: l) ((s, a) :: l).
  exact: cvl_ge0.
rewrite (cvl_consl (s, a) l) (cvl_consr vk (s, a) l [:: (s, a)]) (cvl_consr vk (s, a) l l) (cvlC vk l [:: (s, a)]).
have -> : cvl [:: (s, a)] [:: (s, a)] = qf Pinf a by rewrite cvl1 big_seq1 cv_self.
by rewrite mulr2n !addrA.
Qed.

Hypothesis Rpos : forall i, (i < size t)%N -> 0 < R`_i.
Let Sg : 'M[F]_N := Sig k t R.

Lemma qf_diag_mx n (r : 'rV[F]_n) (x : 'cV[F]_n) : qf (diag_mx r) x = \sum_i r 0 i * x i 0 ^+ 2.
Proof.
rewrite /qf -mulmxA mxE; apply: eq_bigr => i _.
rewrite mul_diag_mx !mxE expr2 mulrCA.
by [].
Qed.

Lemma diag_pd : pdmx (diag_mx (row_of N R)).
Proof.
split=> [|x x0]; first by rewrite tr_diag_mx.
rewrite -/(qf _ _) qf_diag_mx.
have [i xi] : exists i, x i 0 != 0.
  apply/existsP; apply: contraR x0; rewrite negb_exists => /forallP h.
  apply/eqP/matrixP => i j; rewrite ord1 [RHS]mxE; apply/eqP; move: (h i).
  by rewrite negbK.
rewrite (bigD1 i) //=; apply: ltr_paddr.
  by apply: sumr_ge0 => j _; rewrite mxE mulr_ge0 ?sqr_ge0 // ltW // Rpos.
by rewrite mxE mulr_gt0 ?Rpos // lt_neqAle sqr_ge0 eq_sym sqrf_eq0 xi.
Qed.

Lemma Sig_pd : pdmx Sg.
Proof. by apply: psdpdD; [exact: gram_psd | exact: diag_pd]. Qed.

Lemma post_le s : psdmx (Pinf - post_cov Pinf (Cst k t s) Sg).
Proof.
have -> : Pinf - post_cov Pinf (Cst k t s) Sg = Cst k t s *m invmx Sg *m (Cst k t s)^T.
  by rewrite /post_cov opprB addrC subrK.
apply: psd_conj; apply: pd_psd; apply: pd_inv; exact: Sig_pd.
Qed.

Lemma post_psd s : psdmx (post_cov Pinf (Cst k t s) Sg).
Proof.
have [sP _] := vs_pinf vk; have pdS := Sig_pd; have uS := pd_unit pdS.
have [sS _] := pdS; rewrite -/Sg in sS.
split=> [|a].
  by rewrite /post_cov linearB /= sP trmx_mul trmxK trmx_mul inv_sym // mulmxA.
set C := Cst k t s.
pose x := - (invmx Sg *m C^T *m a).
have ex : Sg *m x = - (C^T *m a).
  by rewrite /x mulmxN !mulmxA mulmxV // mul1mx.
have z1 : a^T *m C *m x = - (a^T *m (C *m invmx Sg *m C^T) *m a).
  by rewrite /x mulmxN !mulmxA.
have z2 : x^T *m Sg *m x = a^T *m (C *m invmx Sg *m C^T) *m a.
  rewrite -mulmxA ex mulmxN -mulNmx /x linearN /= opprK trmx_mul trmx_mul trmxK inv_sym //.
  by rewrite !mulmxA.
have := joint_ge0 s a x; rewrite -/C.
have e : qf (gram 0 (obs_cov k) t) x = qf Sg x - qf (diag_mx (row_of N R)) x.
  by rewrite /Sg /Sig /data_cov qfD addrK.
rewrite e => h; have hd := proj2 (pd_psd diag_pd) x; rewrite -/(qf _ _) in hd.
have h2 : 0 <= qf Pinf a + (a^T *m C *m x) 0 0 *+ 2 + qf Sg x.
  apply: le_trans h _; rewrite ler_add2l ler_subl_addr.
  by rewrite ler_addl.
apply: le_trans h2 _.
rewrite /qf z2 z1 /post_cov.
rewrite mulmxBr mulmxBl [X in _ <= X]mxE [(- (_ *m _)) 0 0]mxE mulr2n.
set q := (a^T *m Pinf *m a) 0 0; set z := (a^T *m _ *m a) 0 0.
by rewrite -addrA subrK.
Qed.

End Obs.

(** Loewner order. *)
Definition mxle (F : realFieldType) n (A B : 'M[F]_n) := psdmx (B - A).
Lemma mxle_refl (F : realFieldType) n (A : 'M[F]_n) : mxle A A.
Proof. by rewrite /mxle subrr; apply: psd0. Qed.
Lemma mxle_trans (F : realFieldType) n (A B C : 'M[F]_n) : mxle A B -> mxle B C -> mxle A C.
Proof.
rewrite /mxle => h1 h2; have -> : C - A = (C - B) + (B - A) by rewrite addrA subrK.
exact: psdD.
Qed.
Lemma mxle_proj (F : realFieldType) n (A B : 'M[F]_n) (h : 'M[F]_(1, n)) : mxle A B ->
  (h *m A *m h^T) 0 0 <= (h *m B *m h^T) 0 0.
Proof.
move=> l; rewrite -subr_ge0; have := psd11_ge0 (psd_conj h l).
by rewrite mulmxBr mulmxBl mxE [(- (_ *m _)) 0 0]mxE.
Qed.

Section Order.
Variables (F : realFieldType) (k : ssm F).
Hypothesis vk : valid_ssm k.
Variables (t y R : seq F).
Hypothesis tsort : sorted <=%R t.
Hypothesis Rpos : forall i, (i < size t)%N -> 0 < R`_i.
Let N := size t.
Let d := sdim k.
Let o0 : kf_out F d := (0, 0, 0, 0, 0, 0).
Let o i := nth o0 (KalmanFilter k t y R) i.
Let sh i := nth (0, 0) (RTSSmoother t (KalmanFilter k t y R)) i.

Lemma filt_le_pred i : (i < N)%N -> mxle (o_P (o i)) (o_Pp (o i)).
Proof.
move=> hi; rewrite /mxle; have [_ _ _ e] := o_updE k y R hi; rewrite -/(o i) in e; rewrite e.
rewrite opprB addrC subrK; apply: psd_conj; apply: psd11.
by apply: ltW; apply: (S_pos vk).
Qed.

Lemma smooth_le_filt i : (i < N)%N -> mxle (sh i).2 (o_P (o i)).
Proof.
move=> hi; have N0 := leq_ltn_trans (leq0n _) hi.
elim: (N - i.+1)%N {-2}i hi (erefl (N - i.+1)%N) => [|n IH] j hj /esym e.
  have -> : j = N.-1.
    apply/eqP; rewrite eqn_leq -ltnS prednK // hj /=.
    by rewrite -ltnS prednK // -subn_eq0 e.
  by rewrite /sh (sh_last k y R N0); apply: mxle_refl.
have hj1 : (j.+1 < N)%N by rewrite -subn_gt0 e.
have e1 : (N - j.+2 = n)%N by rewrite subnS e.
have := IH _ hj1 (esym e1) => l1; have l2 := mxle_trans l1 (filt_le_pred hj1).
rewrite /mxle /sh; have [_ ->] := sh_next k y R hj1.
set G := Ggain _ _ _ _ _.
have -> : o_P (o j) - (o_P (o j) + G *m ((sh j.+1).2 - o_Pp (o j.+1)) *m G^T)
       = G *m (o_Pp (o j.+1) - (sh j.+1).2) *m G^T.
  rewrite opprD addrA subrr add0r -mulNmx -mulmxN opprB.
  by [].
exact: psd_conj.
Qed.

End Order.
