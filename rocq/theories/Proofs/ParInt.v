(** The parallel integrated filter and smoother return what the sequential ones return. *)
From mathcomp Require Import all_ssreflect all_algebra.
From Verif.Prelude Require Import Psd Zmod.
From Verif.Model Require Import Jax Ssm Sequential Parallel Integrated.
From Verif.Proofs Require Import KalmanPd ScanLemmas SeqExact AssocScan FilterElem ParStep ParExact
  IntBook IntExact.
Set Implicit Arguments.
Unset Strict Implicit.
Unset Printing Implicit Defensive.
Import Order.TTheory GRing.Theory Num.Theory.
Local Open Scope ring_scope.

Section Elements.
Variables (F : realFieldType) (d : nat).

(** b and C of a combination only depend on b and C of its left argument. *)
Lemma combine_left_bC (e1 e2 e : felem F d) : fb e1 = fb e2 -> fC e1 = fC e2 ->
  fb (filter_combine e1 e) = fb (filter_combine e2 e) /\
  fC (filter_combine e1 e) = fC (filter_combine e2 e).
Proof. by case: e1 e2 e => ?????[?????][?????] /= -> ->. Qed.

Lemma end_generic (Phi Q : 'M[F]_d) (H : 'M[F]_(1, d)) (y r : F) : 0 < r -> psdmx Q ->
  int_end_params Phi Q H y r = make_generic_params Phi Q H y r.
Proof.
move=> r0 pQ; rewrite /int_end_params /make_generic_params /=; congr FElem.
- apply: symmetrise_sym; rewrite -/(gain H r Q).
  have e := gainHP H r0 pQ.
  rewrite mulmxBl mul1mx e linearB /= (proj1 pQ) !trmx_mul trmxK; congr (_ - _).
  by rewrite (tr11 (_ + _)) mulmxA.
- by rewrite trmx_mul !trmxK.
Qed.
Lemma start_pred (Phi Q Rs : 'M[F]_d) : int_start_params Phi Q Rs = pred_elem (Rs *m Phi) (Rs *m Q *m Rs^T).
Proof. by []. Qed.
Lemma generic_ok (Phi Q : 'M[F]_d) (H : 'M[F]_(1, d)) (y r : F) : 0 < r -> psdmx Q ->
  okf (make_generic_params Phi Q H y r).
Proof.
move=> r0 pQ; rewrite (generic_split _ _ r0 pQ).
by apply: ok_combine; split=> //=; [exact: psd0|exact: psd0|exact: psd_upd].
Qed.
End Elements.

Section ParInt.
Variables (F : realFieldType) (d : nat).
Variables (A Q : F -> F -> 'M[F]_d) (Hs : seq 'M[F]_(1, d)) (RESET : nat -> 'M[F]_d).
Variables (R y tmid delta : seq F) (inst : seq nat) (P0 : 'M[F]_d).
Let N := size tmid.
Let K := N.*2.
Let t := t_states tmid delta.
Let obs := obsid tmid delta.
Let state := stateid tmid delta.
Let Dt k : F := t`_k.+1 - t`_k.
Hypothesis pP0 : psdmx P0.
Hypothesis q0 : Q 0 0 = 0.
Hypothesis pQ : forall k, (k.+1 < K)%N -> psdmx (Q 0 (Dt k)).
Hypothesis Rpos : forall i, (i < N)%N -> 0 < R`_i.
Hypothesis ysize : size y = N.
Hypothesis N0 : (0 < N)%N.
Hypothesis first_start : nth 0%N state 0 = 0%N.

Let out := integrated_kalman_filter A Q Hs RESET R y t obs inst state 0 P0.
Let o0 : kf_out F d := (0, 0, 0, 0, 0, 0).
Let o i := nth o0 out i.
Let insts := instid_states tmid delta inst.

Let K0 : (0 < K)%N. Proof. by rewrite double_gt0. Qed.
Let tsize : size t = K. Proof. exact: t_size. Qed.
Lemma pi_diff i : (i.+1 < K)%N -> (diff t)`_i = Dt i.
Proof. by move=> hi; rewrite /diff nth_mkseq // tsize -ltnS prednK. Qed.
Lemma pi_inst i : (i < K)%N -> nth 0%N insts i = nth 0%N inst (nth 0%N obs i).
Proof. by move=> hi; rewrite /insts /instid_states (nth_map 0%N) // obs_size. Qed.

Let xs := int_filter_params A Q Hs RESET R y t obs insts state P0.
Let e0 : felem F d := FElem 0 0 0 0 0.
Lemma pi_size : size xs = K. Proof. by rewrite /= size_mkseq tsize prednK. Qed.
Lemma pi_xsS i : (i.+1 < K)%N -> nth e0 xs i.+1 =
  if nth 0%N state i.+1 == 0%N
  then int_start_params (A 0 (Dt i)) (Q 0 (Dt i)) (RESET (nth 0%N inst (nth 0%N obs i.+1)))
  else make_generic_params (A 0 (Dt i)) (Q 0 (Dt i)) (nth 0 Hs (nth 0%N obs i.+1))
         y`_(nth 0%N obs i.+1) R`_(nth 0%N obs i.+1).
Proof.
move=> hi; rewrite /= nth_mkseq; last by rewrite tsize -ltnS prednK.
rewrite pi_diff // pi_inst //; case: ifP => // _.
by rewrite end_generic //; [apply: Rpos; exact: obs_lt|exact: pQ].
Qed.

Lemma pi_ok : all_ok (@okf F d) xs.
Proof.
apply: (all_okP (x0 := e0)); rewrite pi_size => -[|i] hi.
  by split=> /=; [exact: psd_conj|exact: psd0].
rewrite pi_xsS //; case: ifP => _; last by apply: generic_ok; [apply: Rpos; exact: obs_lt|exact: pQ].
by split=> /=; [apply: psd_conj; exact: pQ|exact: psd0].
Qed.

Let es := parallel_integrated_kalman_filter A Q Hs RESET R y t obs insts state P0.
Lemma pi_esE : es = prefixes (@filter_combine F d) xs.
Proof.
rewrite /es /parallel_integrated_kalman_filter (@associative_scanE _ _ (@okf F d)) //.
- exact: ok_combine.
- exact: filter_combine_assoc.
- exact: pi_ok.
Qed.
Lemma pi_size_es : size es = K. Proof. by rewrite pi_esE size_prefixes pi_size. Qed.

Let pQ0 : psdmx (Q 0 0). Proof. by rewrite q0; exact: psd0. Qed.

Lemma pi_next i : (i.+1 < K)%N ->
  o_mp (o i.+1) = A 0 (Dt i) *m o_m (o i)
  /\ o_Pp (o i.+1) = A 0 (Dt i) *m o_P (o i) *m (A 0 (Dt i))^T + Q 0 (Dt i).
Proof.
move=> hi; have [-> ->] := @ie_pE F d A Q Hs RESET R y tmid delta inst P0 _ hi.
by rewrite ie_crS ?(ltnW hi).
Qed.
Lemma pi_first : o_mp (o 0) = 0 /\ o_Pp (o 0) = A 0 0 *m P0 *m (A 0 0)^T.
Proof. by have [-> ->] := @ie_p0 F d A Q Hs RESET R y tmid delta inst P0 K0; rewrite /ie_S0 q0 addr0. Qed.
Lemma pi_psd i : (i < K)%N -> psdmx (o_P (o i)).
Proof.
move=> hi; have [h1 h2] := @ie_psd F d A Q Hs RESET R y tmid delta inst P0 pP0 pQ0 pQ Rpos N0 _ hi.
by have := @ie_Pf F d A Q Hs RESET R y tmid delta inst P0 _ hi; rewrite -/(o i) => ->; apply: psd_conj.
Qed.

Lemma pi_es i : (i < K)%N -> fb (nth e0 es i) = o_m (o i) /\ fC (nth e0 es i) = o_P (o i).
Proof.
rewrite pi_esE; elim: i => [|i IH] hi.
  have -> : nth e0 (prefixes (@filter_combine F d) xs) 0 = nth e0 xs 0 by [].
  have [-> ->] := @ie_start F d A Q Hs RESET R y tmid delta inst P0 _ hi first_start.
  have [-> ->] := pi_first.
  rewrite /reset_at first_start eqxx /= pi_inst // !mulmx0; split=> //.
  by rewrite !trmx_mul !mulmxA.
have [eb eC] := IH (ltnW hi).
rewrite nth_prefixesS ?pi_size //.
have [-> ->] := @combine_left_bC F d _ (state_elem (o_m (o i)) (o_P (o i))) (nth e0 xs i.+1) eb eC.
have pP := pi_psd (ltnW hi); have [em eP] := pi_next hi.
rewrite pi_xsS //; case: eqP => [e|/eqP e].
  have [-> ->] := @ie_start F d A Q Hs RESET R y tmid delta inst P0 _ hi e.
  rewrite start_pred pred_combine //; last by apply: psd_conj; exact: pQ.
  rewrite /reset_at e eqxx -/(o i.+1) em eP /= mulmxA; split=> //.
  by rewrite mulmxDr mulmxDl !trmx_mul !mulmxA.
have r0 : 0 < R`_(nth 0%N obs i.+1) by apply: Rpos; exact: obs_lt.
have [ev eS -> ->] := @ie_end F d A Q Hs RESET R y tmid delta inst P0 _ hi e.
have o1 : okf (state_elem (o_m (o i)) (o_P (o i))) by split=> //=; exact: psd0.
have o2 : okf (pred_elem (A 0 (Dt i)) (Q 0 (Dt i))) by split=> /=; [exact: pQ|exact: psd0].
have o3 : okf (upd_elem (nth 0 Hs (nth 0%N obs i.+1)) y`_(nth 0%N obs i.+1) R`_(nth 0%N obs i.+1)).
  by split; [exact: psd0|exact: psd_upd].
have pPp : psdmx (o_Pp (o i.+1)) by rewrite eP; apply: psdD; [exact: psd_conj|exact: pQ].
rewrite (generic_split _ _ r0 (pQ hi)) filter_combine_assoc // pred_combine //; last exact: pQ.
rewrite -em -eP upd_combine // /ie_gain ev eS.
by split.
Qed.

Lemma pi_m : map (@fb F d) es = map (@o_m F d) out.
Proof.
apply: (@eq_from_nth _ 0); rewrite !size_map pi_size_es ?ie_size_out // => i hi.
by rewrite (nth_map e0) ?pi_size_es // (nth_map o0) ?ie_size_out //; case: (pi_es hi).
Qed.
Lemma pi_P : map (@fC F d) es = map (@o_P F d) out.
Proof.
apply: (@eq_from_nth _ 0); rewrite !size_map pi_size_es ?ie_size_out // => i hi.
by rewrite (nth_map e0) ?pi_size_es // (nth_map o0) ?ie_size_out //; case: (pi_es hi).
Qed.

Let pr := int_predictions A Q t P0 (map (@fb F d) es) (map (@fC F d) es).
Lemma pi_pr i : (i < K)%N -> nth (0, 0) pr i = (o_mp (o i), o_Pp (o i)).
Proof.
move=> hi; rewrite /pr pi_m pi_P /int_predictions nth_mkseq ?tsize //.
case: i hi => [|i] hi.
  by have [-> ->] := pi_first; rewrite mulmx0 q0 addr0.
by rewrite pi_diff // !(nth_map o0) ?ie_size_out ?(ltnW hi) //; have [-> ->] := pi_next hi.
Qed.
Lemma pi_size_pr : size pr = K. Proof. by rewrite size_mkseq tsize. Qed.
Lemma pi_mp : unzip1 pr = map (@o_mp F d) out.
Proof.
have e : size (unzip1 pr) = K by rewrite size_map pi_size_pr.
apply: (@eq_from_nth _ 0); rewrite e ?size_map ?ie_size_out // => i hi.
by rewrite (nth_map (0, 0)) ?pi_size_pr // (nth_map o0) ?ie_size_out // pi_pr.
Qed.
Lemma pi_Pp : unzip2 pr = map (@o_Pp F d) out.
Proof.
have e : size (unzip2 pr) = K by rewrite size_map pi_size_pr.
apply: (@eq_from_nth _ 0); rewrite e ?size_map ?ie_size_out // => i hi.
by rewrite (nth_map (0, 0)) ?pi_size_pr // (nth_map o0) ?ie_size_out // pi_pr.
Qed.

Lemma pi_vS : int_calc_vS Hs R y obs state (unzip1 pr) (unzip2 pr) = ends_vS y state out.
Proof.
rewrite /int_calc_vS /ends_vS pi_mp pi_Pp ysize -/(ends tmid delta); congr pair; apply/eq_in_map => i hi.
  have [iK ie] := ends_in hi.
  have [ev _ _ _] := @ie_end F d A Q Hs RESET R y tmid delta inst P0 _ iK ie.
  by rewrite (nth_map o0) ?ie_size_out // -/(o i) [RHS]ev.
have [iK ie] := ends_in hi.
have [_ eS _ _] := @ie_end F d A Q Hs RESET R y tmid delta inst P0 _ iK ie.
by rewrite (nth_map o0) ?ie_size_out // -/(o i) [RHS]eS.
Qed.

(** Smoother. *)
Hypothesis uPp : forall k, (k.+1 < K)%N -> o_Pp (o k.+1) \in unitmx.
Let mf := map (@o_m F d) out.
Let Pf := map (@o_P F d) out.
Let mp := map (@o_mp F d) out.
Let Pp := map (@o_Pp F d) out.
Let sm := integrated_rts_smoother A RESET t obs inst state mf Pf mp Pp.
Let s0 : 'cV[F]_d * 'M[F]_d := (0, 0).
Let z0 : selem F d := SElem 0 0 0.
Let zs := int_smooth_params A Q RESET t insts state mp Pp mf Pf.
Let mf' k := if nth 0%N state k == 0%N then o_mp (o k) else o_m (o k).
Let Pf' k := if nth 0%N state k == 0%N then o_Pp (o k) else o_P (o k).
Let Ap k : 'M[F]_d := A 0 (Dt k) *m reset_at RESET tmid delta inst k.

Lemma pi_size_zs : size zs = K. Proof. by rewrite size_rcons size_mkseq tsize prednK. Qed.
Lemma pi_out T (f : kf_out F d -> T) x i : (i < K)%N -> nth x (map f out) i = f (o i).
Proof. by move=> hi; rewrite (nth_map o0) ?ie_size_out. Qed.
Lemma pi_zs i : (i.+1 < K)%N ->
  nth z0 zs i = smooth_generic_params (Ap i) (Q 0 (Dt i)) (mf' i) (Pf' i).
Proof.
move=> hi; rewrite /zs /int_smooth_params nth_rcons size_mkseq tsize.
have ip : (i < K.-1)%N by rewrite -ltnS prednK.
rewrite ip nth_mkseq ?tsize // pi_diff // pi_inst ?(ltnW hi) // !pi_out ?(ltnW hi) //.
by rewrite /Ap /reset_at /mf' /Pf'; case: eqP => // _; rewrite mulmx1.
Qed.

Lemma pi_smooth :
  [seq (sg x, sL x) | x <- associative_scan_reverse (@smooth_combine F d) zs] = sm.
Proof.
rewrite associative_scan_reverseE; last exact: smooth_combine_assoc.
set ps := prefixes _ _.
have sps : size ps = K by rewrite size_prefixes size_rev pi_size_zs.
have szsm : size sm = K by rewrite /sm ie_size_sm.
have key i : (i < K)%N -> sE (nth z0 ps i) = 0 /\
    nth s0 sm (K.-1 - i) = (sg (nth z0 ps i), sL (nth z0 ps i)).
  elim: i => [|i IH] hi.
    have -> : nth z0 ps 0 = nth z0 (rev zs) 0 by rewrite /ps; case: (rev zs).
    have := @ie_sh_last F d A Q Hs RESET R y tmid delta inst P0 N0.
    rewrite subn0 -/sm -/s0 -/K => ->; rewrite /zs /int_smooth_params rev_rcons /=.
    have l1 := @ie_last_out F d A Q Hs RESET R y tmid delta inst P0 N0.
    by split=> //; rewrite !l1.
  have [e1 e2] := IH (ltnW hi).
  have hj : (K.-1 - i = (K.-1 - i.+1).+1)%N by rewrite subnSK // -ltnS prednK.
  set j := (K.-1 - i.+1)%N in hj *.
  have jN : (j.+1 < K)%N by rewrite -hj -[X in (_ < X)%N](prednK K0) ltnS leq_subr.
  have jN' : (j < K)%N := ltnW jN.
  rewrite /ps nth_prefixesS ?size_rev ?pi_size_zs // -/ps nth_rev ?pi_size_zs //.
  have -> : (K - i.+2 = j)%N by rewrite /j -[in LHS](prednK K0) subSS.
  rewrite pi_zs //.
  rewrite hj in e2.
  have [q1 q2] := @ie_sh_next F d A Q Hs RESET R y tmid delta inst P0 _ jN.
  rewrite -/out -/mf -/Pf -/mp -/Pp -/sm -/s0 -/o0 -/(o j) -/(o j.+1) -/(mf' j) -/(Pf' j) e2 /= in q1 q2.
  have mE := @ie_mpS F d A Q Hs RESET R y tmid delta inst P0 _ jN.
  have PE := @ie_PpS F d A Q Hs RESET R y tmid delta inst P0 _ jN.
  rewrite -/(o j.+1) -/(o j) -/(mf' j) -/(Pf' j) /ie_Q -/N -/K jN in mE PE.
  rewrite -[ie_Ap _ _ _ _ _ _]/(Ap j) in mE PE.
  set G := ie_G _ _ _ _ _ _ _ _ _ _ _ in q1 q2.
  have GE : G = (solve (Ap j *m Pf' j *m (Ap j)^T + Q 0 (Dt j))^T (Pf' j *m (Ap j)^T)^T)^T.
    by rewrite /G /ie_G -/(o j.+1) PE.
  case ee: (nth z0 ps i) e1 q1 q2 => [E1 g1 L1] /= e1 q1 q2; rewrite -GE e1.
  split; first by rewrite mulmx0.
  rewrite [LHS]surjective_pairing q1 q2; congr pair; first by rewrite mE; mxzmod.
  have [_ [sP _]] := @ie_psd F d A Q Hs RESET R y tmid delta inst P0 pP0 pQ0 pQ Rpos N0 _ jN'.
  rewrite -/(o j) -/(Pf' j) in sP.
  have GP : G *m o_Pp (o j.+1) = Pf' j *m (Ap j)^T.
    by rewrite GE -PE; apply: solveTT; exact: uPp.
  have sPp : (o_Pp (o j.+1))^T = o_Pp (o j.+1).
    have [[h _] _] := @ie_psd F d A Q Hs RESET R y tmid delta inst P0 pP0 pQ0 pQ Rpos N0 _ jN.
    exact: h.
  have GPG : G *m o_Pp (o j.+1) *m G^T = G *m Ap j *m Pf' j.
    rewrite -(mulmxA G) -(mulmxA G (Ap j)); congr (_ *m _).
    rewrite -[LHS]trmxK [(_ *m G^T)^T]trmx_mul trmxK sPp GP.
    by rewrite [(_ *m (Ap j)^T)^T]trmx_mul trmxK sP.
  by rewrite mulmxBr mulmxBl GPG; mxzmod.
apply: (@eq_from_nth _ s0); rewrite size_map size_rev sps ?szsm // => i hi.
rewrite (nth_map z0) ?size_rev ?sps // nth_rev ?sps //.
have hi2 : (K - i.+1 < K)%N by rewrite ltn_subrL K0.
have [_ <-] := key _ hi2; congr nth.
have -> : (K - i.+1 = K.-1 - i)%N by rewrite -[in LHS](prednK K0) subSS.
by rewrite subKn // -ltnS prednK.
Qed.

Theorem int_par_conditionE b :
  int_par_condition A Q Hs RESET R y t obs insts state P0 b
  = int_condition A Q Hs RESET R y t obs inst state P0 b.
Proof.
rewrite /int_par_condition /int_condition -/out -/es pi_m pi_P -/mf -/Pf -/mp -/Pp.
have e1 := pi_mp; have e2 := pi_Pp; have e3 := pi_vS; rewrite /pr pi_m pi_P -/mf -/Pf -/mp -/Pp in e1 e2 e3.
rewrite e3 e1 e2 -/sm -/zs -pi_smooth /unzip1 /unzip2 -!map_comp.
by congr Conditioned.
Qed.
End ParInt.
