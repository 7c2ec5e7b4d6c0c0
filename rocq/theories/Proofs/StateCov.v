(** Covariances of a stationary state-space model at sorted times form a
    Gauss-Markov chain. *)
From mathcomp Require Import all_ssreflect all_algebra.
From Verif.Prelude Require Import Zmod Psd.
From Verif.Model Require Import Ssm.
From Verif.Spec Require Import Gp Markov.
Set Implicit Arguments.
Unset Strict Implicit.
Unset Printing Implicit Defensive.
Import Order.TTheory GRing.Theory Num.Theory.
Local Open Scope ring_scope.

Section Pid.
Variable F : realFieldType.
Variables (p N : nat).
Implicit Types (X Y : 'M[F]_(p, N)) (Z U : 'M[F]_N).

Lemma mul_pidE X k a j : (X *m pid_mx k) a j = X a j *+ (j < k)%N.
Proof.
rewrite mxE (bigD1 j) //= mxE eqxx /= mulr_natr big1 ?addr0 // => i ne.
by rewrite mxE (_ : (val i == val j) = false) ?mulr0 //; apply: negbTE.
Qed.

Lemma mul_copidE X k a j : (X *m (1%:M - pid_mx k)) a j = X a j *+ (k <= j)%N.
Proof.
rewrite mulmxBr mulmx1 mxE [X in _ + X]mxE mul_pidE.
by case: (ltnP j k) => /= _; rewrite ?mulr1n ?mulr0n ?subrr ?subr0.
Qed.

Lemma pid_mulE (V : 'M[F]_(N, p)) k i b : (pid_mx k *m V) i b = V i b *+ (i < k)%N.
Proof. by rewrite -[V]trmxK -tr_pid_mx -trmx_mul mxE mul_pidE trmxK mxE. Qed.

Lemma mul_pid_eq X Y k : (forall a (j : 'I_N), (j < k)%N -> X a j = Y a j) ->
  X *m pid_mx k = Y *m pid_mx k :> 'M_(p, N).
Proof.
move=> h; apply/matrixP=> a j; rewrite !mul_pidE.
by case: ltnP => // /h ->.
Qed.

Lemma mul_copid_eq X Y k : (forall a (j : 'I_N), (k <= j)%N -> X a j = Y a j) ->
  X *m (1%:M - pid_mx k) = Y *m (1%:M - pid_mx k).
Proof.
move=> h; apply/matrixP=> a j; rewrite !mul_copidE.
by case: leqP => // /h ->.
Qed.
End Pid.

Section Pid2.
Variable F : realFieldType.
Variable (N : nat).
Implicit Types (Z U : 'M[F]_N).

Lemma pid_copid_eq Z U k :
  (forall i j : 'I_N, (i < k)%N -> (k <= j)%N -> Z i j = U i j) ->
  pid_mx k *m Z *m (1%:M - pid_mx k) = pid_mx k *m U *m (1%:M - pid_mx k) :> 'M_N.
Proof.
move=> h; apply: mul_copid_eq => i j hj; rewrite !pid_mulE.
by case: ltnP => // hi; rewrite (h i j).
Qed.

Lemma pid_mxS (n : 'I_N) :
  pid_mx n.+1 = pid_mx n + (delta_mx 0 n)^T *m delta_mx (0 : 'I_1) n :> 'M[F]_N.
Proof.
apply/matrixP=> i j; rewrite trmx_delta mul_delta_mx !mxE ltnS -!val_eqE /=.
case: (ltngtP i n) => hi /=; rewrite ?andbT ?andbF ?addr0 //.
by rewrite hi eq_sym add0r.
Qed.

Lemma delta_pid (n : 'I_N) : delta_mx (0 : 'I_1) n *m pid_mx n = 0 :> 'M[F]_(1, N).
Proof.
apply/matrixP=> i j; rewrite mul_pidE !mxE !ord1 eqxx /=.
by case: eqP => [->|_]; rewrite ?ltnn ?mulr0n ?mul0rn.
Qed.

Lemma pid_mx0' : pid_mx 0 = 0 :> 'M[F]_N.
Proof. by apply/matrixP=> i j; rewrite !mxE andbF. Qed.

Lemma pid_mx1' : pid_mx N = 1%:M :> 'M[F]_N.
Proof. exact: pid_mx_1. Qed.

Lemma mul_colsE p q (M : 'M[F]_(p, q)) (V : 'I_N -> 'M[F]_(q, 1)) a j :
  (M *m \matrix_(b, j0) V j0 b 0) a j = (M *m V j) a 0.
Proof. by rewrite !mxE; apply: eq_bigr => b _; rewrite mxE. Qed.
End Pid2.

Section StateCov.
Variables (F : realFieldType) (k : ssm F).
Hypothesis vk : valid_ssm k.
Let d := sdim k.
Let Pinf : 'M[F]_d := spinf k.
Let A (dt : F) : 'M[F]_d := strans k 0 dt.

Lemma sPinf : Pinf^T = Pinf. Proof. exact: (proj1 (vs_pinf vk)). Qed.

Lemma sc_ge s t : t <= s -> state_cov k s t = A (s - t) *m Pinf.
Proof. by rewrite /state_cov ltNge => ->. Qed.

Lemma sc_le s t : s <= t -> state_cov k s t = Pinf *m (A (t - s))^T.
Proof.
rewrite le_eqVlt => /orP[/eqP ->|h]; last by rewrite /state_cov h.
by rewrite /state_cov ltxx subrr (vs_id vk) /A (vs_id vk) trmx1 mul1mx mulmx1.
Qed.

Lemma sc_refl s : state_cov k s s = Pinf.
Proof. by rewrite sc_ge // subrr /A (vs_id vk) mul1mx. Qed.

Lemma sc_tr s t : (state_cov k s t)^T = state_cov k t s.
Proof.
case: (leP s t) => [h|/ltW h].
  by rewrite (sc_le h) (sc_ge h) trmx_mul trmxK sPinf.
by rewrite (sc_ge h) (sc_le h) trmx_mul sPinf.
Qed.

Lemma A_semi a b c : a <= b -> b <= c -> A (c - a) = A (c - b) *m A (b - a).
Proof.
move=> ab bc; rewrite /A -(vs_semi vk) ?subr_ge0 //; congr (strans k 0 _).
zmod.
Qed.

Lemma sc_fwd u s s' : u <= s -> s <= s' ->
  state_cov k s' u = A (s' - s) *m state_cov k s u.
Proof.
move=> us ss'; rewrite (sc_ge us) (sc_ge (le_trans us ss')).
by rewrite (A_semi us ss') mulmxA.
Qed.

Lemma sc_fut u s s' : s <= s' -> s' <= u ->
  state_cov k s u = Pinf *m (A (s' - s))^T *m (A (u - s'))^T.
Proof.
move=> ss' su; rewrite (sc_le (le_trans ss' su)) (A_semi ss' su).
by rewrite trmx_mul mulmxA.
Qed.

Lemma sc_mid u s s' w : u <= s -> s <= s' -> s' <= w ->
  state_cov k u w = (state_cov k s u)^T *m (A (s' - s))^T *m (A (w - s'))^T.
Proof.
move=> us ss' sw; rewrite -[LHS]trmxK sc_tr -!trmx_mul; congr (_ ^T).
rewrite (sc_fwd us (le_trans ss' sw)) (A_semi ss' sw).
by rewrite mulmxA.
Qed.

Lemma snoise0 : snoise k 0 0 = 0.
Proof.
by rewrite (vs_noise vk) ?lexx // (vs_id vk) trmx1 mul1mx mulmx1 subrr.
Qed.

Lemma noise_stat a : 0 <= a ->
  A a *m Pinf *m (A a)^T + snoise k 0 a = Pinf.
Proof. by move=> a0; rewrite (vs_noise vk) // addrCA subrr addr0. Qed.

(** Data at sorted times. *)
Variables (t R : seq F).
Hypothesis tsort : sorted <=%R t.
Let N := size t.
Definition Sig : 'M[F]_N := data_cov (gram 0 (obs_cov k) t) (row_of _ R).
Definition Cst (s : F) : 'M[F]_(d, N) := state_obs_cov k s t.
Definition phis (s : F) : 'M[F]_(d, N) :=
  \matrix_(a, j) ((A (t`_j - s))^T *m (sobs k t`_j)^T) a 0.

Lemma t_le i j : (i <= j)%N -> (j < N)%N -> t`_i <= t`_j.
Proof.
move=> ij jN; apply: (sorted_leq_nth le_trans le_refl) => //.
by rewrite inE (leq_ltn_trans ij).
Qed.

Lemma SigE i j : Sig i j = obs_cov k t`_i t`_j + (R`_i *+ (i == j)).
Proof. by rewrite !mxE. Qed.

Lemma obs_cov_sym a b : obs_cov k a b = obs_cov k b a.
Proof.
rewrite /obs_cov -[sobs k a *m _ *m _]tr11 !trmx_mul trmxK sc_tr.
by rewrite mulmxA.
Qed.

Lemma Sig_sym : Sig^T = Sig.
Proof.
apply/matrixP=> i j; rewrite mxE !SigE obs_cov_sym eq_sym.
by case: eqP => [->|].
Qed.

Lemma CstE s a j : Cst s a j = (state_cov k s t`_j *m (sobs k t`_j)^T) a 0.
Proof. by rewrite !mxE. Qed.

Lemma Cst_fwd n s s' : (n <= N)%N -> (forall j, (j < n)%N -> t`_j <= s) -> s <= s' ->
  Cst s' *m pid_mx n = A (s' - s) *m Cst s *m pid_mx n :> 'M_(d, N).
Proof.
move=> hn hs ss'; apply: mul_pid_eq => a j hj.
by rewrite CstE mul_colsE mulmxA -sc_fwd // hs.
Qed.

Lemma Cst_next n s : (forall j, (n <= j)%N -> (j < N)%N -> s <= t`_j) ->
  Cst s *m (1%:M - pid_mx n) = Pinf *m phis s *m (1%:M - pid_mx n).
Proof.
move=> hs; apply: mul_copid_eq => a j hj.
by rewrite CstE mul_colsE mulmxA sc_le // hs.
Qed.

Lemma Cst_prev n s s' : (forall j, (n <= j)%N -> (j < N)%N -> s' <= t`_j) -> s <= s' ->
  Cst s *m (1%:M - pid_mx n)
  = Pinf *m (A (s' - s))^T *m phis s' *m (1%:M - pid_mx n).
Proof.
move=> hs ss'; apply: mul_copid_eq => a j hj.
by rewrite CstE mul_colsE mulmxA (sc_fut ss') // hs.
Qed.

Lemma Cst_Sig n s s' :
  (forall j, (j < n)%N -> (j < N)%N -> t`_j <= s) -> s <= s' ->
  (forall j, (n <= j)%N -> (j < N)%N -> s' <= t`_j) ->
  pid_mx n *m Sig *m (1%:M - pid_mx n)
  = pid_mx n *m (Cst s)^T *m (A (s' - s))^T *m phis s' *m (1%:M - pid_mx n) :> 'M_N.
Proof.
move=> hs ss' hs'.
have -> : pid_mx n *m (Cst s)^T *m (A (s' - s))^T *m phis s'
        = pid_mx n *m ((Cst s)^T *m (A (s' - s))^T *m phis s') :> 'M_N.
  by rewrite !mulmxA.
apply: pid_copid_eq => i j hi hj.
have ne : (i == j) = false.
  by apply/negP=> /eqP e; move: hi; rewrite e ltnNge hj.
rewrite SigE ne mulr0n addr0 mul_colsE /obs_cov.
rewrite (sc_mid (hs _ hi (ltn_ord i)) ss' (hs' _ hj (ltn_ord j))).
rewrite !mulmxA [in RHS]mxE [in LHS]mxE.
apply: eq_bigr => b _; congr (_ * _).
rewrite [in RHS]mxE [in LHS]mxE; apply: eq_bigr => c _; congr (_ * _).
rewrite [in RHS]mxE [in LHS]mxE; apply: eq_bigr => e _; congr (_ * _).
by rewrite [in RHS]mxE CstE -[sobs k t`_i *m _]trmxK trmx_mul trmxK mxE.
Qed.

Lemma dnE (X : 'M[F]_N) (n : 'I_N) b : (delta_mx (0 : 'I_1) n *m X) 0 b = X n b.
Proof. by rewrite -rowE mxE. Qed.

Lemma hCst (n : 'I_N) j : (sobs k t`_n *m Cst t`_n) 0 j = obs_cov k t`_n t`_j.
Proof. by rewrite mul_colsE mulmxA. Qed.

Lemma Sig_row (n : 'I_N) :
  delta_mx (0 : 'I_1) n *m Sig *m pid_mx n = sobs k t`_n *m Cst t`_n *m pid_mx n :> 'M_(1, N).
Proof.
apply: mul_pid_eq => a j hj; rewrite ord1 dnE SigE hCst.
by rewrite -val_eqE /= gtn_eqF // mulr0n addr0.
Qed.

Lemma Sig_diag (n : 'I_N) :
  delta_mx (0 : 'I_1) n *m Sig *m (delta_mx (0 : 'I_1) n)^T
  = sobs k t`_n *m Pinf *m (sobs k t`_n)^T + (R`_n)%:M.
Proof.
apply: mx11_eq; rewrite trmx_delta -colE mxE dnE SigE eqxx mulr1n.
by rewrite /obs_cov sc_refl [RHS]mxE; congr (_ + _); rewrite mxE eqxx.
Qed.

Lemma Cst_col (n : 'I_N) :
  Cst t`_n *m (delta_mx (0 : 'I_1) n)^T = Pinf *m (sobs k t`_n)^T.
Proof.
apply/matrixP=> a b; rewrite ord1 trmx_delta -colE mxE CstE sc_refl.
by [].
Qed.

End StateCov.
