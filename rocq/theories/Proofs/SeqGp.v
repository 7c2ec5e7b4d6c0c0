(** Exactness of the sequential solver for the observed process, in terms of Spec/Gp. *)
From mathcomp Require Import all_ssreflect all_algebra.
From Verif.Prelude Require Import Psd Zmod.
From Verif.Spec Require Import Gp Markov.
From Verif.Model Require Import Jax Ssm Sequential.
From Verif.Proofs Require Import ScanLemmas StateCov SeqExact GpExt SeqMore.
Set Implicit Arguments.
Unset Strict Implicit.
Unset Printing Implicit Defensive.
Import Order.TTheory GRing.Theory Num.Theory.
Local Open Scope ring_scope.

Section SeqGp.
Variables (F : realFieldType) (k : ssm F).
Hypothesis vk : valid_ssm k.
Variables (t y R : seq F).
Hypothesis tsort : sorted <=%R t.
Hypothesis Rpos : forall i, (i < size t)%N -> 0 < R`_i.
Let N := size t.
Hypothesis N0 : (0 < N)%N.
Variable b : bool.
Let c := seq_condition k t y R b.

Lemma post_obs_mean s :
  (sobs k s *m post_mean (Cst k t s) (Sig k t R) (col_of N y)) 0 0
  = gp_mean 0 (obs_cov k) t R y s.
Proof. by rewrite proj_post_mean obs_Cst. Qed.

Lemma obs_cov_refl s : obs_cov k s s = (sobs k s *m spinf k *m (sobs k s)^T) 0 0.
Proof. by rewrite /obs_cov (sc_refl vk). Qed.

Lemma post_obs_var s :
  (sobs k s *m post_cov (spinf k) (Cst k t s) (Sig k t R) *m (sobs k s)^T) 0 0
  = gp_var 0 (obs_cov k) t R s.
Proof.
rewrite proj_post_cov obs_Cst /gp_var obs_cov_refl; congr (post_cov _ _ _ 0 0).
by apply/matrixP=> i j; rewrite !ord1 [RHS]mxE eqxx mulr1n.
Qed.

Lemma smooth_mean i : (i < N)%N ->
  (sobs k t`_i *m nth 0 (c_ms c) i) 0 0 = gp_mean 0 (obs_cov k) t R y t`_i.
Proof.
move=> hi; rewrite nth_sh1 //.
by rewrite (seq_smooth_exact vk y tsort Rpos hi) /= post_obs_mean.
Qed.

Lemma smooth_var i : (i < N)%N ->
  (sobs k t`_i *m nth 0 (c_Ps c) i *m (sobs k t`_i)^T) 0 0 = gp_var 0 (obs_cov k) t R t`_i.
Proof.
move=> hi; rewrite nth_sh2 //.
by rewrite (seq_smooth_exact vk y tsort Rpos hi) /= post_obs_var.
Qed.

Lemma point_mean s : (sobs k s *m (@pr_point _ k c s).1) 0 0 = gp_mean 0 (obs_cov k) t R y s.
Proof. by rewrite (pr_point_exact vk y tsort Rpos b s N0) /= post_obs_mean. Qed.

Lemma point_var s :
  (sobs k s *m (@pr_point _ k c s).2 *m (sobs k s)^T) 0 0 = gp_var 0 (obs_cov k) t R s.
Proof. by rewrite (pr_point_exact vk y tsort Rpos b s N0) /= post_obs_var. Qed.

Lemma gp_quad_ssum : gp_quad 0 (obs_cov k) t R y = ssum k t y R N.
Proof. by rewrite -(Sig_quad vk y tsort Rpos). Qed.
Lemma gp_det_sprod : gp_det 0 (obs_cov k) t R = sprod k t y R N.
Proof. by rewrite -(Sig_det vk y tsort Rpos). Qed.

Let o := KalmanFilter k t y R.
Lemma kf_S_pos i : (i < N)%N -> 0 < (nth 0 (map (@o_S _ _) o) i : 'M[F]_1) 0 0.
Proof. by move=> hi; rewrite nth_out //; apply: S_pos. Qed.
Lemma kf_quad : \sum_(i < N) (nth 0 (map (@o_v _ _) o) i : 'M[F]_1) 0 0 ^+ 2
    / (nth 0 (map (@o_S _ _) o) i : 'M[F]_1) 0 0 = gp_quad 0 (obs_cov k) t R y.
Proof. by rewrite gp_quad_ssum; apply: eq_bigr => i _; rewrite !nth_out. Qed.
Lemma kf_det : \prod_(i < N) (nth 0 (map (@o_S _ _) o) i : 'M[F]_1) 0 0 = gp_det 0 (obs_cov k) t R.
Proof. by rewrite gp_det_sprod; apply: eq_bigr => i _; rewrite !nth_out. Qed.

Lemma gp_var_ge0 s : 0 <= gp_var 0 (obs_cov k) t R s.
Proof. by rewrite -post_obs_var; apply/psd11_ge0/psd_conj/(post_psd vk Rpos s). Qed.
Lemma gp_var_le s : gp_var 0 (obs_cov k) t R s <= obs_cov k s s.
Proof. by rewrite -post_obs_var obs_cov_refl; apply: mxle_proj; apply: post_le. Qed.
End SeqGp.
