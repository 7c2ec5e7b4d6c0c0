(** Sums of integrated and instantaneous kernels: covariances of their states. *)
From Coq Require Import Reals Lra.
From mathcomp Require Import all_ssreflect all_algebra.
From mathcomp.real_closed Require Import mxtens.
From Coquelicot Require Import Coquelicot.
From Verif.Prelude Require Import Rstruct Zmod Psd MxCalc Tens.
From Verif.Spec Require Import Expm Lti WfKernel CovOf WfIntegrated IntCov Mixed.
From Verif.Model Require Import Array Jax Ssm Sequential Integrated BaseKernels IntegratedKernels Kernel.
From Verif.Proofs Require Import Expm Lti Leaves KernelLti KernelProps Evaluate KernelThms LagInt IntBook MarkovChain IntExact
  WindowCov WindowKernel IntGram.
Set Implicit Arguments.
Unset Strict Implicit.
Unset Printing Implicit Defensive.
Import GRing.Theory.
Local Open Scope ring_scope.

(** As [wincov], for any covariance K of measurements. *)
Record gencov (m : model) (n : nat) (K : coord -> coord -> R) (ok : R -> Prop) := Gencov {
  gc_S : R -> (nat -> R) -> (nat -> bool) -> 'M[R]_(md m);
  gc_C : coord -> R -> (nat -> R) -> 'cV[R]_(md m);
  gc_sym : forall X X', K X X' = K X' X;
  gc_init : forall tau, mPinf m = gc_S tau (fun=> tau) (fun=> true);
  gc_step : forall tau dt a u, Rle 0 dt -> ok dt ->
    gc_S (Rplus tau dt) a u = mA m (CT R0) (CT dt) *m gc_S tau a u *m (mA m (CT R0) (CT dt))^T
       + mQ m (CT R0) (CT dt);
  gc_reset : forall s tau a u, (s < n)%N -> (forall j, Rle (a j) tau) ->
    mReset m s *m gc_S tau a u *m (mReset m s)^T = gc_S tau (upd a s tau) (upd u s false);
  gc_obs : forall X a u, (inst_of X < n)%N -> Rle 0 (len X) -> (forall j, Rle (a j) (finish X)) ->
    (Rlt 0 (len X) -> a (inst_of X) = begin X /\ u (inst_of X) = false) ->
    gc_S (finish X) a u *m (mH m X)^T = gc_C X (finish X) a;
  gc_Cstep : forall X tau dt a, gc_C X (Rplus tau dt) a = mA m (CT R0) (CT dt) *m gc_C X tau a;
  gc_Creset : forall X s tau a, (s < n)%N -> Rle 0 (len X) -> Rle (finish X) tau ->
    mReset m s *m gc_C X tau a = gc_C X tau (upd a s tau);
  gc_read : forall X X' a, (inst_of X' < n)%N -> Rle 0 (len X) -> Rle 0 (len X') ->
    Rle (finish X) (finish X') ->
    (Rlt 0 (len X') -> a (inst_of X') = begin X') ->
    (mH m X' *m gc_C X (finish X') a) 0 0 = K X X';
  gc_P : psdmx (mPinf m);
  gc_Q : forall dt, Rle 0 dt -> ok dt -> psdmx (mQ m (CT R0) (CT dt))
}.

Definition gen_of_win m n kap ok (w : wincov m n kap ok) : gencov m n (mean_cov kap) ok.
Proof.
refine (@Gencov m n (mean_cov kap) ok (wc_S w) (wc_C w) _ (wc_init w) (@wc_step _ _ _ _ w) (@wc_reset _ _ _ _ w)
  (@wc_obs _ _ _ _ w) (@wc_Cstep _ _ _ _ w) (@wc_Creset _ _ _ _ w) (@wc_read _ _ _ _ w) (wc_P w) (@wc_Q _ _ _ _ w)).
by move=> X X'; apply: mean_cov_sym; [exact: (wc_cont w)|exact: (wc_even w)].
Defined.

(** ** An instantaneous kernel *)
Lemma documented_reset k s : documented k -> mReset (denote k) s = 1%:M.
Proof.
elim: k => //=.
- by move=> k1 h1 k2 h2 [/h1 -> /h2 ->]; rewrite -scalar_mx_block.
- by move=> k1 h1 k2 h2 [/h1 -> /h2 ->]; rewrite tens1.
Qed.
Lemma documented_const k : documented k -> const_obs k.
Proof. by elim: k => //= k1 h1 k2 h2 [/h1 ? /h2 ?]. Qed.

Section Inst.
Variables (k : kernel) (n : nat).
Hypothesis wf : wf_kernel k.
Hypothesis dk : documented k.
Hypothesis nc : no_constant k.
Let m := denote k.
Let K X X' := covariance k (Rabs (Rminus (finish X) (finish X'))).
Let ok dt := noise_kept dt k.

Definition inst_gencov : gencov m n K ok.
Proof.
have rE s : mReset m s = 1%:M by apply: documented_reset.
have hH X Y : mH m X = mH m Y by apply: const_obsP; apply: documented_const.
have Asem s t : mA m (CT 0) (CT (s + t)) = mA m (CT 0) (CT t) *m mA m (CT 0) (CT s).
  have [G [B h]] := kernel_lti wf; rewrite !(lt_A h) !lag0.
  by rewrite Rplus_comm -expm_add.
have QE dt : Rle 0 dt -> ok dt -> mQ m (CT 0) (CT dt) = mPinf m - mA m (CT 0) (CT dt) *m mPinf m *m (mA m (CT 0) (CT dt))^T.
  move=> t0 o; apply: (@noise_formula false) => //; first by rewrite lag0.
  by rewrite /kernel_transition no_constant_raises.
apply: (@Gencov m n K ok (fun _ _ _ => mPinf m)
  (fun X tau _ => mA m (CT 0) (CT (Rminus tau (finish X))) *m mPinf m *m (mH m X)^T)) => //.
- by move=> X X'; rewrite /K Rabs_minus_sym.
- by move=> tau dt a u t0 o; rewrite QE // addrC subrK.
- by move=> s tau a u _ _; rewrite rE mul1mx trmx1 mulmx1.
- move=> X a u _ _ _ _; rewrite Rminus_diag_eq //.
  have [G [B h]] := kernel_lti wf; rewrite (lt_A h) lag0.
  by rewrite scale0r expm0 mul1mx.
- move=> X tau dt a; rewrite !mulmxA -Asem; congr (_ *m _ *m _).
  by congr (mA m _ (CT _)); toR; ring.
- by move=> X s tau a _ _ _; rewrite rE mul1mx.
- move=> X X' a _ _ _ ff _; rewrite /K.
  have -> : Rabs (Rminus (finish X) (finish X')) = alag (CT (finish X')) (CT (finish X)).
    by rewrite /alag /= Rabs_minus_sym.
  rewrite -evaluate_covariance // /evaluate /=.
  case: (RltbP (finish X') (finish X)) => [h|_]; first by toR; lra.
  have [G [B h]] := kernel_lti wf; rewrite !(lt_A h) !lag0 lagB /= !mulmxA.
  by rewrite (hH (CT (finish X)) X) (hH (CT (finish X')) X').
- exact/pd_psd/kernel_pinf_pd.
- move=> dt t0 o; apply: noise_psd => //; by rewrite lag0.
Defined.
End Inst.

(** ** Sums *)
Lemma gencov_ext m n n' K K' (ok ok' : R -> Prop) : (n' <= n)%N -> (forall X X', K X X' = K' X X') ->
  (forall dt, ok' dt -> ok dt) -> gencov m n K ok -> gencov m n' K' ok'.
Proof.
move=> hn hk ho w; apply: (@Gencov m n' K' ok' (gc_S w) (gc_C w)).
- by move=> X X'; rewrite -!hk (gc_sym w).
- exact: (gc_init w).
- by move=> tau dt a u t0 /ho o; exact: (gc_step w).
- by move=> s tau a u sn; apply: (gc_reset w); apply: leq_trans hn.
- by move=> X a u sn; apply: (gc_obs w); apply: leq_trans hn.
- exact: (gc_Cstep w).
- by move=> X s tau a sn; apply: (gc_Creset w); apply: leq_trans hn.
- move=> X X' a hi l0 l0' ff hs; rewrite -hk.
  by apply: (gc_read w) => //; apply: leq_trans hn.
- exact: (gc_P w).
- by move=> dt t0 /ho; exact: (gc_Q w).
Qed.

Lemma sum_gencov m1 m2 n K1 K2 ok1 ok2 : gencov m1 n K1 ok1 -> gencov m2 n K2 ok2 ->
  gencov (sum_model m1 m2) n (fun X X' => Rplus (K1 X X') (K2 X X')) (fun dt => ok1 dt /\ ok2 dt).
Proof.
move=> w1 w2; apply: (@Gencov (sum_model m1 m2) _ _ _
  (fun tau a u => block_mx (gc_S w1 tau a u) 0 0 (gc_S w2 tau a u))
  (fun X tau a => col_mx (gc_C w1 X tau a) (gc_C w2 X tau a))).
- by move=> X X'; rewrite (gc_sym w1) (gc_sym w2).
- by move=> tau; rewrite /= -!gc_init.
- move=> tau dt a u t0 [o1 o2].
  rewrite /= (gc_step w1 tau a u t0 o1) (gc_step w2 tau a u t0 o2).
  by rewrite tr_block_mx !mulmx_block !trmx0 !mul0mx !mulmx0 !addr0 !add0r !mul0mx add_block_mx !addr0.
- move=> s tau a u sn ha; rewrite /= -(gc_reset w1 u sn ha) -(gc_reset w2 u sn ha).
  by rewrite tr_block_mx !mulmx_block !trmx0 !mul0mx !mulmx0 !addr0 !add0r !mul0mx.
- move=> X a u hi l0 ha hs; rewrite /= tr_row_mx mul_block_col !mul0mx addr0 add0r.
  by rewrite (gc_obs w1 hi) // (gc_obs w2 hi).
- move=> X tau dt a; rewrite /= mul_block_col !mul0mx addr0 add0r.
  by rewrite -!gc_Cstep.
- move=> X s tau a sn l0 ft; rewrite /= mul_block_col !mul0mx addr0 add0r.
  by rewrite (gc_Creset w1 a sn) // (gc_Creset w2 a sn).
- move=> X X' a hi l0 l0' ff hs; rewrite /= mul_row_col mxE.
  by rewrite (gc_read w1 hi) // (gc_read w2 hi).
- exact: psd_block (gc_P w1) (gc_P w2).
- by move=> dt t0 [o1 o2]; exact: psd_block (gc_Q w1 t0 o1) (gc_Q w2 t0 o2).
Qed.

Lemma mixed_leaf k b n n' : integrated_of k = Some (b, n) -> wf_kernel b -> sharp_kernel b -> (n' <= n)%N ->
  gencov (denote k) n' (integrated_cov b) (fun dt => noise_kept dt b /\ integral_noise_kept dt k).
Proof.
move=> ik wf sk hn; apply: (gencov_ext hn _ _ (gen_of_win (leaf_kernel_wincov ik wf sk))) => //.
Qed.
Lemma mixed_gencov k n : wf_mixed k -> serves n k ->
  gencov (denote k) n (mixed_cov finish k) (fun dt => mixed_noise_kept dt k).
Proof.
have inst k' (w : wf_kernel k' /\ documented k' /\ no_constant k') :
    gencov (denote k') n (fun X X' => covariance k' (Rabs (Rminus (finish X) (finish X')))) (fun dt => noise_kept dt k').
  by case: w => w1 [w2 w3]; exact: inst_gencov.
have leaf k' b n' (ik : integrated_of k' = Some (b, n')) (w : wf_kernel b /\ sharp_kernel b) (h : (n <= n')%N) :
    gencov (denote k') n (integrated_cov b) (fun dt => noise_kept dt b /\ integral_noise_kept dt k').
  by case: w => w1 w2; exact: (mixed_leaf ik w1 w2 h).
elim: k => [||||||||||a k _ nm|k1 IH1 k2 IH2|k1 _ k2 _|||||].
all: try by move=> *; match goal with h : wf_mixed ?k |- _ => exact: (inst k h) end.
all: try by move=> *; match goal with h : wf_mixed ?k, h' : serves _ ?k |- _ => exact: (leaf k _ _ (erefl _) h h') end.
- by move=> [/IH1 {}IH1 /IH2 {}IH2] [/IH1 {}IH1 /IH2 {}IH2]; exact: sum_gencov.
Qed.

(** ** The chain of states *)
Section Track.
Variables (m : model) (n : nat) (Kc : coord -> coord -> R) (ok : R -> Prop) (w : gencov m n Kc ok).
Variables (tm dl : seq R) (inst : seq nat) (nd : seq R).
Let N := size tm.
Let K := N.*2.
Let X i := CX (nth 0 tm i) (nth 0 dl i) (nth 0%N inst i).
Let Xs := mkseq X N.
Let A := fun a b => mA m (CT a) (CT b).
Let Q := fun a b => mQ m (CT a) (CT b).
Let Hs := map (mH m) Xs.
Let t := @t_states [realFieldType of R] tm dl.
Let obs := @obsid [realFieldType of R] tm dl.
Let state := @stateid [realFieldType of R] tm dl.
Let Dt k : R := t`_k.+1 - t`_k.
Notation stn := (@st [realFieldType of R] tm dl).
Notation enn := (@en [realFieldType of R] tm dl).
Notation aw := (aw tm dl inst).
Notation uw := (uw tm dl inst).

Hypothesis ok0 : ok 0.
Hypothesis okD : forall k, (k.+1 < K)%N -> ok (Dt k).
Hypothesis insts : forall i, (i < N)%N -> (nth 0%N inst i < n)%N.
Hypothesis lens : forall i, (i < N)%N -> Rle 0 (nth 0 dl i).
Hypothesis sep : forall i j, (i < N)%N -> (j < N)%N -> nth 0%N inst i = nth 0%N inst j ->
  Rlt 0 (nth 0 dl i) -> ~ (Rlt (begin (X i)) (begin (X j)) /\ Rlt (begin (X j)) (finish (X i))).

Let Ap := @ie_Ap [realFieldType of R] (md m) A (mReset m) tm dl inst.
Let Qp := @ie_Q [realFieldType of R] (md m) Q tm dl.
Let S0 := @ie_S0 [realFieldType of R] (md m) A Q (mPinf m).
Let S := mS S0 Ap Qp.

Lemma gS_win k : (k < K)%N -> S k = gc_S w (t`_k) (aw k) (uw k).
Proof.
elim: k => [|k IH] hk.
  rewrite /S /= /S0 /ie_S0 /A /Q (gc_init w (t`_0)).
  have := @gc_step _ _ _ _ w (t`_0) 0 (aw 0) (uw 0) (Rle_refl _) ok0.
  by rewrite Rplus_0_r => <-.
have hk' := ltnW hk; rewrite -[S k.+1]/(Ap k *m S k *m (Ap k)^T + Qp k) IH //.
rewrite /Ap /ie_Ap /Qp /ie_Q hk trmx_mul !mulmxA /= -[(t_states tm dl)`_k.+1 - (t_states tm dl)`_k]/(Dt k) /reset_at -/state -/obs.
rewrite -[in RHS](addDt tm dl k) [in RHS]gc_step; [|exact: Dt_ge0|exact: okD].
congr (_ + _).
case: ifP => hs; last by rewrite trmx1 !mulmx1.
rewrite -(gc_reset w (uw k) (obs_inst dl insts hk') (fun j => @aw_le tm dl inst k j hk')).
by rewrite !mulmxA.
Qed.

Lemma gC_win x l k : Rle 0 (len x) -> Rle (finish x) (t`_l) -> (l <= k)%N -> (k < K)%N ->
  T Ap k l *m gc_C w x (t`_l) (aw l) = gc_C w x (t`_k) (aw k).
Proof.
move=> l0 fx; elim: k => [|k IH] lk hk.
  by move: lk; rewrite leqn0 => /eqP ->; rewrite T_refl mul1mx.
move: lk; rewrite leq_eqVlt => /orP[/eqP ->|lk]; first by rewrite T_refl mul1mx.
have hk' := ltnW hk; rewrite TS // -mulmxA IH // /Ap /ie_Ap -mulmxA /= -[(t_states tm dl)`_k.+1 - (t_states tm dl)`_k]/(Dt k) /reset_at -/state -/obs.
have fk : Rle (finish x) (t`_k) by apply: Rle_trans fx _; exact: t_le.
rewrite -[in RHS](addDt tm dl k) [in RHS]gc_Cstep; congr (_ *m _).
case: ifP => hs; last by rewrite mul1mx.
by rewrite (gc_Creset w _ (obs_inst dl insts hk')).
Qed.

Lemma gS_obs i : (i < N)%N -> S (enn i) *m (mH m (X i))^T = gc_C w (X i) (t`_(enn i)) (aw (enn i)).
Proof.
move=> hi; rewrite gS_win ?en_lt // (en_finish _ inst) //.
apply: (gc_obs w); first exact: insts.
- exact: lens.
- by move=> j; rewrite -(en_finish _ inst) //; apply: aw_le; apply: en_lt.
- by move=> l0; apply: (window_end sep hi).
Qed.

Lemma gcross i k : (i < N)%N -> (enn i <= k)%N -> (k < K)%N ->
  mcov S0 Ap Qp k (enn i) *m (mH m (X i))^T = gc_C w (X i) (t`_k) (aw k).
Proof.
move=> hi ik hk; rewrite mcov_ge // -mulmxA gS_obs // gC_win //; first exact: lens.
by rewrite (en_finish _ inst) //; apply: Rle_refl.
Qed.

Lemma gen_psd_P : psdmx (mPinf m). Proof. exact: (gc_P w). Qed.
Lemma gen_psd_Q0 : psdmx (Q 0 0). Proof. exact: (gc_Q w (Rle_refl _) ok0). Qed.
Lemma gen_psd_Q k : (k.+1 < K)%N -> psdmx (Q 0 (Dt k)).
Proof. by move=> hk; apply: (gc_Q w); [apply: Dt_ge0|apply: okD]. Qed.

Lemma gobs_cov_le i j : (i < N)%N -> (j < N)%N -> (enn j <= enn i)%N ->
  (mH m (X i) *m mcov S0 Ap Qp (enn i) (enn j) *m (mH m (X j))^T) 0 0 = Kc (X j) (X i).
Proof.
move=> hi hj ji; rewrite -mulmxA gcross ?en_lt // (en_finish _ inst) //.
apply: (gc_read w); [exact: insts|exact: lens|exact: lens| |].
  by rewrite -!(en_finish _ inst) //; apply: t_le => //; apply: en_lt.
by move=> l0; case: (window_end sep hi l0).
Qed.

Lemma gen_gram i j : (i < N)%N -> (j < N)%N ->
  (mH m (X i) *m mcov S0 Ap Qp (enn i) (enn j) *m (mH m (X j))^T) 0 0 = Kc (X i) (X j).
Proof.
move=> hi hj; case: (leqP (enn j) (enn i)) => [ji|/ltnW ij].
  by rewrite gobs_cov_le // (gc_sym w).
rewrite -(gobs_cov_le hj hi ij).
have sS0 : S0^T = S0.
  by have [] := psdD (psd_conj (A 0 0) gen_psd_P) gen_psd_Q0.
have sQp k : (Qp k)^T = Qp k.
  rewrite /Qp /ie_Q; case: ifP => [hk|_]; last by rewrite trmx0.
  by have [] := gen_psd_Q hk.
by rewrite -(mcov_tr Ap sS0 sQp) -[in LHS](trmxK (_ *m _ *m _)) [in LHS]mxE !trmx_mul !trmxK mulmxA.
Qed.

Lemma gen_Sg (i j : 'I_N) : @ie_Sg [realFieldType of R] (md m) A Q Hs (mReset m) nd tm dl inst (mPinf m) i j
  = Kc (X i) (X j) + nd`_i *+ (i == j).
Proof. by rewrite [LHS]mxE /ie_h !Hs_nth // gen_gram. Qed.
End Track.
