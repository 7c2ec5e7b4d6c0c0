(** The parallel filter and smoother return what the sequential ones return. *)
From mathcomp Require Import all_ssreflect all_algebra.
From Verif.Prelude Require Import Psd Zmod.
From Verif.Model Require Import Jax Ssm Sequential Parallel.
From Verif.Proofs Require Import KalmanPd ScanLemmas SeqExact AssocScan FilterElem ParStep.
Set Implicit Arguments.
Unset Strict Implicit.
Unset Printing Implicit Defensive.
Import Order.TTheory GRing.Theory Num.Theory.
Local Open Scope ring_scope.

Lemma smooth_combine_assoc (F : realFieldType) d : associative (@smooth_combine F d).
Proof.
case=> Ea ga La [Eb gb Lb] [Ec gc Lc] /=; congr SElem.
- by rewrite !mulmxA.
- by mxzmod.
- rewrite !trmx_mul; mxzmod.
Qed.

Section ParExact.
Variables (F : realFieldType) (k : ssm F).
Let d := sdim k.
Variables (t y R : seq F).
Let N := size t.
Hypothesis co : forall s s', sobs k s = sobs k s'.
Hypothesis id0 : strans k 0 0 = 1%:M.
Hypothesis q0 : snoise k 0 0 = 0.
Hypothesis pinf : psdmx (spinf k).
Hypothesis qpsd : forall i, (i.+1 < N)%N -> psdmx (snoise k 0 (t`_i.+1 - t`_i)).
Hypothesis Rpos : forall i, (i < N)%N -> 0 < R`_i.
Hypothesis N0 : (0 < N)%N.

Let out := KalmanFilter k t y R.
Let o0 : kf_out F d := (0, 0, 0, 0, 0, 0).
Let o i := nth o0 out i.
Hypothesis uPp : forall i, (i < N)%N -> o_Pp (o i) \in unitmx.

Lemma nth_diff i : (i.+1 < N)%N -> (diff t)`_i = t`_i.+1 - t`_i.
Proof. by move=> hi; rewrite /diff nth_mkseq // -ltnS prednK. Qed.

Let xs := filter_params k t y R.
Let e0 : felem F d := FElem 0 0 0 0 0.
Lemma size_params : size xs = N. Proof. by rewrite /= size_mkseq prednK. Qed.
Lemma params0 : nth e0 xs 0 = make_first_params 1%:M (sobs k 0) 0 (spinf k) y`_0 R`_0.
Proof. by rewrite /xs /filter_params /= id0. Qed.
Lemma paramsS i : (i.+1 < N)%N -> nth e0 xs i.+1 =
  make_generic_params (strans k 0 (t`_i.+1 - t`_i)) (snoise k 0 (t`_i.+1 - t`_i)) (sobs k t`_i.+1)
    y`_i.+1 R`_i.+1.
Proof.
move=> hi; rewrite /= nth_mkseq; last by rewrite -ltnS prednK.
by rewrite nth_diff // (co _ t`_i.+1).
Qed.

Lemma all_okP (T : Type) (P : T -> Prop) x0 (s : seq T) :
  (forall i, (i < size s)%N -> P (nth x0 s i)) -> all_ok P s.
Proof.
elim: s => //= a s IH h; split; first exact: (h 0%N).
by apply: IH => i hi; exact: (h i.+1).
Qed.

Lemma params_ok : all_ok (@okf F d) xs.
Proof.
apply: (all_okP (x0 := e0)); rewrite size_params => -[|i] hi.
  by rewrite params0; have [] := first_step (sobs k 0) y`_0 (Rpos hi) pinf.
rewrite paramsS // (generic_split _ _ (Rpos hi)); last exact: qpsd.
apply: ok_combine; split=> /=; [exact: qpsd | exact: psd0 | exact: psd0 |].
exact: psd_upd (Rpos hi).
Qed.

Let es := parallel_kalman_filter k t y R.
Lemma esE : es = prefixes (@filter_combine F d) xs.
Proof.
rewrite /es /parallel_kalman_filter (@associative_scanE _ _ (@okf F d)) //.
- exact: ok_combine.
- exact: filter_combine_assoc.
- exact: params_ok.
Qed.
Lemma size_es : size es = N. Proof. by rewrite esE size_prefixes size_params. Qed.

Lemma o_first : o_mp (o 0) = 0 /\ o_Pp (o 0) = spinf k.
Proof.
rewrite /o /out (o_mpE k y R N0) (o_PpE k y R N0) /Dt /= id0 q0 mulmx0; split=> //.
by rewrite trmx1 mul1mx mulmx1 addr0.
Qed.

Lemma filter_es i : (i < N)%N ->
  [/\ fA (nth e0 es i) = 0, fb (nth e0 es i) = o_m (o i), fC (nth e0 es i) = o_P (o i) &
      psdmx (o_P (o i))].
Proof.
rewrite esE; elim: i => [|i IH] hi.
  have e : nth e0 (prefixes (@filter_combine F d) xs) 0 = nth e0 xs 0 by [].
  rewrite e params0; have [-> eb ec [ok _]] := first_step (sobs k 0) y`_0 (Rpos hi) pinf.
  have [ev eS em eP] := o_updE k y R hi; rewrite -/out -/(o 0) in ev eS em eP.
  have [m0 P0] := o_first.
  have eK : Kgain k t y R 0 = gain (sobs k 0) R`_0 (spinf k).
    by rewrite /Kgain -/out -/(o 0) eS P0 (co _ 0).
  have e2 : o_P (o 0) = fC (make_first_params 1%:M (sobs k 0) 0 (spinf k) y`_0 R`_0).
    by rewrite eP ec eK eS P0 (co _ 0).
  rewrite e2; split=> //; rewrite eb em ev eK m0 (co _ 0) //.
have [eA eb ec pc] := IH (ltnW hi).
rewrite nth_prefixesS ?size_params // paramsS //.
have [] := combine_step (sobs k t`_i.+1) y`_i.+1 (Rpos hi) (strans k 0 (t`_i.+1 - t`_i)) pc (qpsd hi) eA eb ec.
have [ev eS em eP] := o_updE k y R hi; rewrite -/out -/(o i.+1) in ev eS em eP.
have [mE PE] := o_next k y R hi; rewrite -/out -/(o i) -/(o i.+1) in mE PE.
have eK : Kgain k t y R i.+1 = gain (sobs k t`_i.+1) R`_i.+1 (o_Pp (o i.+1)).
  by rewrite /Kgain -/out -/(o i.+1) eS.
rewrite -mE -PE => -> -> ->; rewrite em eP ev eS eK; split=> //.
have pPp : psdmx (o_Pp (o i.+1)) by rewrite PE; apply: psdD; [apply: psd_conj | apply: qpsd].
have gs := gainS (sobs k t`_i.+1) (Rpos hi) pPp.
exact: (update_psd erefl gs pPp (ltW (Rpos hi))).
Qed.

Lemma par_filter : ParallelKalmanFilter k t y R = out.
Proof.
apply: (@eq_from_nth _ o0); first by rewrite size_mkseq size_out.
move=> i; rewrite size_mkseq -/N => hi; rewrite -/(o i) /ParallelKalmanFilter -/es.
have eb j : (j < N)%N -> nth 0 (map (@fb F d) es) j = o_m (o j).
  by move=> hj; rewrite (nth_map e0) ?size_es //; have [] := filter_es hj.
have eC j : (j < N)%N -> nth 0 (map (@fC F d) es) j = o_P (o j).
  by move=> hj; rewrite (nth_map e0) ?size_es //; have [] := filter_es hj.
rewrite nth_mkseq // nth_mkseq // eb // eC //.
have [ev eS _ _] := o_updE k y R hi; rewrite -/out -/(o i) in ev eS.
have [em eP] : o_mp (o i) = (if i is i'.+1 then strans k 0 (diff t)`_i' *m o_m (o i') else 0) /\
   o_Pp (o i) = (if i is i'.+1 then strans k 0 (diff t)`_i' *m o_P (o i') *m (strans k 0 (diff t)`_i')^T
      + snoise k 0 (diff t)`_i' else spinf k).
  case: i {ev eS} hi => [|i] hi; first exact: o_first.
  by rewrite nth_diff //; exact: o_next.
move: em eP ev eS; case: (o i) => [[[[[m P] mp] Pp] v] S_] /= em eP ev eS.
case: i hi em eP ev eS => [|i] hi em eP ev eS.
  rewrite mulmx0 mulmx0 trmx1 mulmx1 mul1mx addr0 subr0.
  by rewrite ev eS em eP mulmx0 subr0.
by rewrite eb ?(ltnW hi) // eC ?(ltnW hi) // ev eS em eP.
Qed.

(** Smoother *)
Let mf := map (@o_m F d) out.
Let Pf := map (@o_P F d) out.
Let sm := RTSSmoother t out.
Let s0 : 'cV[F]_d * 'M[F]_d := (0, 0).
Let z0 : selem F d := SElem 0 0 0.
Let zs := @smooth_params F k t mf Pf.

Lemma size_zs : size zs = N. Proof. by rewrite size_rcons size_mkseq prednK. Qed.

Lemma par_smooth : @ParallelRTSSmoother F k t mf Pf = sm.
Proof.
rewrite /ParallelRTSSmoother associative_scan_reverseE; last exact: smooth_combine_assoc.
rewrite -/zs; set ps := prefixes _ _.
have sps : size ps = N by rewrite size_prefixes size_rev size_zs.
have szsm : size sm = N by rewrite size_sm; apply/maxn_idPr.
(* the i-th partial product is the smoothed state N-1-i *)
have key i : (i < N)%N -> sE (nth z0 ps i) = 0 /\
    nth s0 sm (N.-1 - i) = (sg (nth z0 ps i), sL (nth z0 ps i)).
  elim: i => [|i IH] hi.
    have -> : nth z0 ps 0 = nth z0 (rev zs) 0 by rewrite /ps; case: (rev zs).
    rewrite subn0 sh_last // /zs /smooth_params rev_rcons /=.
    by split=> //; rewrite !last_out.
  have [e1 e2] := IH (ltnW hi).
  have hj : (N.-1 - i = (N.-1 - i.+1).+1)%N by rewrite subnSK // -ltnS prednK.
  set j := (N.-1 - i.+1)%N in hj *.
  have jN : (j.+1 < N)%N by rewrite -hj -[X in (_ < X)%N](prednK N0) ltnS leq_subr.
  have jN' : (j < N)%N := ltnW jN.
  rewrite /ps nth_prefixesS ?size_rev ?size_zs // -/ps nth_rev ?size_zs //.
  have -> : (N - i.+2 = j)%N by rewrite /j -[in LHS](prednK N0) subSS.
  have -> : nth z0 zs j = smooth_generic_params (strans k 0 (t`_j.+1 - t`_j)) (snoise k 0 (t`_j.+1 - t`_j))
       (o_m (o j)) (o_P (o j)).
    rewrite /zs /smooth_params nth_rcons size_mkseq.
    have jp : (j < (size t).-1)%N by rewrite -ltnS prednK.
    by rewrite jp nth_mkseq // nth_diff // /mf /Pf !nth_out.
  rewrite hj in e2; have [q1 q2] := sh_next k y R jN; rewrite -/out -/sm -/(o j) -/(o j.+1) -/s0 in q1 q2.
  rewrite e2 /= in q1 q2.
  have [mE PE] := o_next k y R jN; rewrite -/out -/(o j) -/(o j.+1) in mE PE.
  set G := Ggain k t y R j in q1 q2.
  have GE : G = (solve (strans k 0 (t`_j.+1 - t`_j) *m o_P (o j) *m (strans k 0 (t`_j.+1 - t`_j))^T
       + snoise k 0 (t`_j.+1 - t`_j))^T (o_P (o j) *m (strans k 0 (t`_j.+1 - t`_j))^T)^T)^T.
    by rewrite /G /Ggain -/out -/(o j.+1) -/(o j) PE.
  case ee: (nth z0 ps i) e1 q1 q2 => [E1 g1 L1] /= e1 q1 q2; rewrite -GE e1.
  split; first by rewrite mulmx0.
  rewrite [LHS]surjective_pairing q1 q2; congr pair; first by rewrite mE; mxzmod.
  have [_ _ _ [sP _]] := filter_es jN'.
  have GP : G *m o_Pp (o j.+1) = o_P (o j) *m (strans k 0 (t`_j.+1 - t`_j))^T.
    by rewrite GE -PE; apply: solveTT; exact: uPp.
  have sPp : (o_Pp (o j.+1))^T = o_Pp (o j.+1).
    by rewrite PE linearD /= (proj1 (qpsd jN)) !trmx_mul trmxK sP mulmxA.
  have GPG : G *m o_Pp (o j.+1) *m G^T = G *m strans k 0 (t`_j.+1 - t`_j) *m o_P (o j).
    rewrite -!mulmxA; congr (_ *m _).
    by rewrite -[LHS]trmxK trmx_mul trmxK sPp GP trmx_mul trmxK sP.
  by rewrite mulmxBr mulmxBl GPG; mxzmod.
apply: (@eq_from_nth _ s0); rewrite size_map size_rev sps ?szsm // => i hi.
rewrite (nth_map z0) ?size_rev ?sps // nth_rev ?sps //.
have hi2 : (N - i.+1 < N)%N by rewrite ltn_subrL N0.
have [_ <-] := key _ hi2; congr nth.
have -> : (N - i.+1 = N.-1 - i)%N by rewrite -[in LHS](prednK N0) subSS.
by rewrite subKn // -ltnS prednK.
Qed.

Theorem par_conditionE : par_condition k t y R = seq_condition k t y R true.
Proof. by rewrite /par_condition par_filter par_smooth. Qed.

End ParExact.
