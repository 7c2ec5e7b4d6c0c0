(** Prediction with the integrated filter and smoother: the states at test times are
    Gaussian conditionals of states inserted into the chain. *)
From mathcomp Require Import all_ssreflect all_algebra.
From Verif.Prelude Require Import Zmod Psd.
From Verif.Model Require Import Jax Ssm Sequential Integrated.
From Verif.Spec Require Import Gp.
From Verif.Proofs Require Import Gauss Chain KalmanPd ScanLemmas StateCov SeqExact MarkovChain IntBook IntExact IntPd.
Set Implicit Arguments.
Unset Strict Implicit.
Unset Printing Implicit Defensive.
Import Order.TTheory GRing.Theory Num.Theory.
Local Open Scope ring_scope.

Section IntPredict.
Variables (F : realFieldType) (d : nat) (H : F -> 'M[F]_(1, d)) (A Q : F -> F -> 'M[F]_d) (P0 : 'M[F]_d).
Let k := @Ssm F d H A Q P0.
Variables (Hs : seq 'M[F]_(1, d)) (RESET : nat -> 'M[F]_d).
Variables (R y tmid delta : seq F) (inst : seq nat) (b : bool).
Let N := size tmid.
Let K := N.*2.
Let t := t_states tmid delta.
Let obs := obsid tmid delta.
Let state := stateid tmid delta.
Let Dt i : F := t`_i.+1 - t`_i.
Hypothesis pP0 : pdmx P0.
Hypothesis uA : forall x, A 0 x \in unitmx.
Hypothesis pQ0 : psdmx (Q 0 0).
Hypothesis pQ : forall i, (i.+1 < K)%N -> psdmx (Q 0 (Dt i)).
Hypothesis Rpos : forall i, (i < N)%N -> 0 < R`_i.
Hypothesis full : forall i v, (i.+1 < K)%N -> nth 0%N state i = 0%N ->
  (RESET (nth 0%N inst (nth 0%N obs i)))^T *m ((A 0 (Dt i))^T *m v) = 0 ->
  qf (Q 0 (Dt i)) v = 0 -> v = 0.
Hypothesis N0 : (0 < N)%N.
Hypothesis last_end : nth 0%N state K.-1 != 0%N.
Hypothesis Pstat : A 0 0 *m P0 *m (A 0 0)^T + Q 0 0 = P0.

Let c := int_condition A Q Hs RESET R y t obs inst state P0 b.
Let out := integrated_kalman_filter A Q Hs RESET R y t obs inst state 0 P0.
Let o i := nth (0, 0, 0, 0, 0, 0) out i.
Let sm := integrated_rts_smoother A RESET t obs inst state (map (@o_m F d) out) (map (@o_P F d) out)
     (map (@o_mp F d) out) (map (@o_Pp F d) out).
Let sh i := nth (0, 0) sm i.
Let Sg := @ie_Sg F d A Q Hs RESET R tmid delta inst P0.
Let C i := @ie_C F d A Q Hs RESET tmid delta inst P0 i.
Let S i := @ie_S F d A Q RESET tmid delta inst P0 i.
Let E i := @mE F N (@ie_e F tmid delta) i.
Let phi i : 'M[F]_(d, N) := mphi (@ie_Ap F d A RESET tmid delta inst) (@ie_h F d Hs tmid) (@ie_e F tmid delta) i.
Let rs i := @reset_at F d RESET tmid delta inst i.
Let yv : 'cV[F]_N := col_of N y.

Let pP := pd_psd pP0.
Let Pd i hi := @ip_pd F d A Q Hs RESET R y tmid delta inst P0 pP0 uA pQ0 pQ Rpos full i hi.

Lemma pt_smooth i : (i < K)%N ->
  exists W, [/\ W *m Sg = C i, (sh i).1 = W *m yv & (sh i).2 = S i - W *m (C i)^T].
Proof. by move=> hi; apply: (ie_smooth pP pQ0 pQ Rpos N0 (fun j hj => pd_unit (Pd hj)) last_end hi). Qed.

Lemma pt_unit : Sg \in unitmx.
Proof. exact: (@ie_unit F d A Q Hs RESET R y tmid delta inst P0 pP pQ0 pQ Rpos N0). Qed.
Lemma pt_sym : Sg^T = Sg.
Proof.
apply: mSg_tr; first by case: (psdD (psd_conj (A 0 0) pP) pQ0).
by move=> i; case: (@ie_pQ F d Q tmid delta pQ i).
Qed.
Lemma pt_inv p (W X : 'M[F]_(p, N)) : W *m Sg = X -> W = X *m invmx Sg.
Proof. by move=> <-; rewrite mulmxK ?pt_unit. Qed.
Lemma pt_proj i : isproj (E i).
Proof.
split; first by rewrite /E /mE tr_diag_mx.
by rewrite /E /mE mulmx_diag; congr diag_mx; apply/matrixP=> a j; rewrite !mxE; case: (_ < _)%N; rewrite ?mulr1 ?mulr0.
Qed.

Lemma c_pred i : (i < K)%N -> nth 0 (c_mp c) i = o_mp (o i) /\ nth 0 (c_Pp c) i = o_Pp (o i).
Proof. by move=> hi; split; apply: (@ie_nth_out F d A Q Hs RESET R y tmid delta inst P0). Qed.
Lemma c_filt i : (i < K)%N -> nth 0 (c_mf c) i = o_m (o i) /\ nth 0 (c_Pf c) i = o_P (o i).
Proof. by move=> hi; split; apply: (@ie_nth_out F d A Q Hs RESET R y tmid delta inst P0). Qed.
Lemma c_smooth i : (i < K)%N -> nth 0 (c_ms c) i = (sh i).1 /\ nth 0 (c_Ps c) i = (sh i).2.
Proof.
move=> hi; have hs : size sm = K by apply: (@ie_size_sm F d A Q Hs RESET R y tmid delta inst P0 N0).
by split; rewrite /c /= (nth_map (0, 0)) // hs.
Qed.

(** ** After state i *)
Section After.
Variables (i : nat) (s : F).
Hypothesis hi : (i < K)%N.
Let A1 := A 0 (s - t`_i).
Let Q1 := Q 0 (s - t`_i).
Definition star_S : 'M[F]_d := A1 *m rs i *m S i *m (A1 *m rs i)^T + Q1.

Lemma star_filt (Cs : 'M[F]_(d, N)) : Cs *m E i.+1 = A1 *m rs i *m C i *m E i.+1 ->
  exists W, winv Sg (E i.+1) star_S Cs W (@pr_kalman F k c i s).2 /\ (@pr_kalman F k c i s).1 = W *m yv.
Proof.
move=> hC; have [_ [W [hW mW]]] := @ie_filter F d A Q Hs RESET R y tmid delta inst P0 pP pQ0 pQ Rpos N0 i hi.
have [e1 e2] := c_filt hi.
have [X [f2 hX]] : exists X, o_P (o i) = rs i *m X *m (rs i)^T /\ winv Sg (E i.+1) (S i) (C i) W X.
  by eexists; split; [exact: (@ie_Pf F d A Q Hs RESET R y tmid delta inst P0 i hi)|exact: hW].
have f1 : o_m (o i) = rs i *m (W *m yv).
  by rewrite -mW; apply: (@ie_mf F d A Q Hs RESET R y tmid delta inst P0 i hi).
exists (A1 *m rs i *m W); rewrite /pr_kalman e1 e2 -/t -/A -/Q -/A1 -/Q1 /= f1 f2 !mulmxA; split=> //.
have := winv_predict (pt_proj i.+1) hX hC (erefl star_S).
by rewrite [(A1 *m _)^T]trmx_mul !mulmxA.
Qed.

Lemma star_last : i = K.-1 -> let Cs := A1 *m rs i *m C i in
  @pr_kalman F k c i s = (post_mean Cs Sg yv, post_cov star_S Cs Sg).
Proof.
move=> ei Cs; have [W [[_ hW hP] hm]] := star_filt (erefl (Cs *m E i.+1)).
have E1 : E i.+1 = 1%:M.
  by rewrite /E ei prednK ?ie_K0 //; apply: mEK => n; apply: (@ie_eK F tmid delta).
rewrite E1 !mulmx1 in hW; rewrite [LHS]surjective_pairing hP hm.
by rewrite /post_mean /post_cov (pt_inv hW).
Qed.

(** Between states i and i + 1. *)
Hypothesis hi1 : (i.+1 < K)%N.
Let A2 := A 0 (t`_i.+1 - s).
Let Q2 := Q 0 (t`_i.+1 - s).
Hypothesis AA : A2 *m A1 = A 0 (Dt i).
Hypothesis QQ : A2 *m Q1 *m A2^T + Q2 = Q 0 (Dt i).
Definition star_C : 'M[F]_(d, N) :=
  A1 *m rs i *m C i *m E i.+1 + star_S *m A2^T *m phi i.+1 *m (1%:M - E i.+1).

Lemma star_CE : star_C *m E i.+1 = A1 *m rs i *m C i *m E i.+1.
Proof.
have [_ EE] := pt_proj i.+1; rewrite mulmxDl -!mulmxA EE [(1%:M - _) *m _]mulmxBl mul1mx EE subrr.
by rewrite !mulmx0 addr0.
Qed.
Lemma star_CE' : star_C *m (1%:M - E i.+1) = star_S *m A2^T *m phi i.+1 *m (1%:M - E i.+1).
Proof.
have [_ EE] := pt_proj i.+1; rewrite mulmxDl -[_ *m E _ *m _]mulmxA -[_ *m (1%:M - _) *m _]mulmxA.
have -> : E i.+1 *m (1%:M - E i.+1) = 0 by rewrite mulmxBr mulmx1 EE subrr.
have -> : (1%:M - E i.+1) *m (1%:M - E i.+1) = 1%:M - E i.+1.
  by rewrite mulmxBr mulmx1 mulmxBl mul1mx EE subrr subr0.
by rewrite mulmx0 add0r.
Qed.

Lemma star_between : @pr_smooth F k c i.+1 s (@pr_kalman F k c i s)
  = (post_mean star_C Sg yv, post_cov star_S star_C Sg).
Proof.
have [W [hW hm]] := star_filt star_CE.
have [Wn [hWn hmn hPn]] := pt_smooth hi1.
case ek: (@pr_kalman F k c i s) hW hm => [m P] hW hm; rewrite /= in hW hm.
have [p1 p2] := c_pred hi1; have [s1 s2] := c_smooth hi1.
rewrite /pr_smooth p1 p2 s1 s2 -/t -/A -/A2; set G := (solve _ _)^T.
have GP : G *m o_Pp (o i.+1) = P *m A2^T by apply: solveTT; apply: pd_unit; apply: Pd.
have AR : @ie_Ap F d A RESET tmid delta inst i = A2 *m (A1 *m rs i) by rewrite mulmxA AA.
have SE : S i.+1 = A2 *m star_S *m A2^T + Q2.
  rewrite /S /ie_S /= -/(S i) AR /ie_Q -/K hi1 -/t -/(Dt i) -QQ /star_S !trmx_mul.
  by mxzmod.
have CnE : C i.+1 *m E i.+1 = A2 *m star_C *m E i.+1.
  have -> : C i.+1 *m E i.+1 = @ie_Ap F d A RESET tmid delta inst i *m C i *m E i.+1 by apply: mCrec.
  by rewrite -[RHS]mulmxA star_CE AR !mulmxA.
have h1 : C i.+1 *m (1%:M - E i.+1) = S i.+1 *m phi i.+1 *m (1%:M - E i.+1) by apply: mphi_next.
have sS0 : (@ie_S0 F d A Q P0)^T = @ie_S0 F d A Q P0 by case: (psdD (psd_conj (A 0 0) pP) pQ0).
have sQ j : (@ie_Q F d Q tmid delta j)^T = @ie_Q F d Q tmid delta j.
  by case: (@ie_pQ F d Q tmid delta pQ j).
have h3 : E i.+1 *m Sg *m (1%:M - E i.+1)
    = E i.+1 *m star_C^T *m A2^T *m phi i.+1 *m (1%:M - E i.+1).
  have -> : E i.+1 *m Sg *m (1%:M - E i.+1)
    = E i.+1 *m (C i)^T *m (@ie_Ap F d A RESET tmid delta inst i)^T *m phi i.+1 *m (1%:M - E i.+1).
    exact: (@mphi_Sg F d N _ _ _ _ _ _ sS0 sQ i).
  congr (_ *m _ *m _); have [sE _] := pt_proj i.+1.
  have -> : E i.+1 *m star_C^T = (star_C *m E i.+1)^T by rewrite trmx_mul sE.
  by rewrite star_CE AR !trmx_mul sE !mulmxA.
have Pn : o_Pp (o i.+1) = A2 *m P *m A2^T + Q2.
  have := congr1 snd ek; rewrite /pr_kalman /= => <-.
  have [f1 ->] := c_filt hi; rewrite -/t -/A -/Q -/A1 -/Q1.
  have [X [-> ->]] : exists X, o_P (o i) = rs i *m X *m (rs i)^T
      /\ o_Pp (o i.+1) = @ie_Ap F d A RESET tmid delta inst i *m X *m (@ie_Ap F d A RESET tmid delta inst i)^T
           + @ie_Q F d Q tmid delta i.
    by eexists; split; [exact: (@ie_Pf F d A Q Hs RESET R y tmid delta inst P0 i hi)
                       |exact: (@ie_PpS F d A Q Hs RESET R y tmid delta inst P0 i hi1)].
  by rewrite AR /ie_Q -/K hi1 -/t -/(Dt i) -QQ !trmx_mul; mxzmod.
have mn : o_mp (o i.+1) = A2 *m m.
  have := congr1 fst ek; rewrite /pr_kalman /= => <-.
  have [-> _] := c_filt hi; rewrite -/t -/A -/A1.
  have [x [-> ->]] : exists x, o_m (o i) = rs i *m x /\ o_mp (o i.+1) = @ie_Ap F d A RESET tmid delta inst i *m x.
    by eexists; split; [exact: (@ie_mf F d A Q Hs RESET R y tmid delta inst P0 i hi)
                       |exact: (@ie_mpS F d A Q Hs RESET R y tmid delta inst P0 i hi1)].
  by rewrite AR !mulmxA.
have e1 := smooth_weights (erefl _) hW CnE SE h1 star_CE' h3 Pn GP hWn.
have e2 := smooth_cov pt_sym (erefl _) (pt_proj i.+1) hW CnE SE h1 star_CE' h3 Pn GP hWn hPn.
congr (_, _); last by rewrite e2 /post_cov -(pt_inv e1).
rewrite hmn mn hm /post_mean -(pt_inv e1) mulmxDl -[G *m _ *m yv]mulmxA mulmxBl.
by rewrite -[A2 *m W *m yv]mulmxA.
Qed.
End After.

(** Before the first state. *)
Section Before.
Variable s : F.
Let A2 := A 0 (t`_0 - s).
Definition star_C0 : 'M[F]_(d, N) := P0 *m A2^T *m phi 0.
Lemma star_before : @pr_smooth F k c 0 s (0, P0) = (post_mean star_C0 Sg yv, post_cov P0 star_C0 Sg).
Proof.
have h0 : (0 < K)%N by apply: ie_K0.
have [W [hW hm hP]] := pt_smooth h0.
have [p1 p2] := c_pred h0; have [s1 s2] := c_smooth h0.
have [m0 pp0] := @ie_p0 F d A Q Hs RESET R y tmid delta inst P0 h0.
have eS0 : @ie_S0 F d A Q P0 = P0 by exact: Pstat.
rewrite /pr_smooth p1 p2 s1 s2 -/t -/A -/A2 /o /out m0 pp0 eS0 subr0 add0r.
set G := (solve _ _)^T.
have GP : G *m P0 = P0 *m A2^T by apply: solveTT; apply: pd_unit.
have E0 : E 0 = 0 by apply: mE0.
have C0 : C 0 = P0 *m phi 0.
  have := @mC_next F d N (@ie_S0 F d A Q P0) (@ie_Ap F d A RESET tmid delta inst) (@ie_Q F d Q tmid delta)
    (@ie_h F d Hs tmid) (@ie_e F tmid delta) 0.
  by rewrite -/(E 0) E0 subr0 !mulmx1 => e; rewrite [C 0]e /= eS0.
have S0 : S 0 = P0 by exact: eS0.
have GC : G *m C 0 = star_C0 by rewrite C0 mulmxA GP.
have eW : G *m W = star_C0 *m invmx Sg by apply: pt_inv; rewrite -mulmxA hW.
congr (_, _); first by rewrite hm mulmxA eW.
by rewrite hP S0 /post_cov -eW -GC trmx_mul; mxzmod.
Qed.
End Before.

(** Rows of the covariances with the data. *)
Let h_ := @ie_h F d Hs tmid.
Let e_ := @ie_e F tmid delta.
Let mc i j := mcov (@ie_S0 F d A Q P0) (@ie_Ap F d A RESET tmid delta inst) (@ie_Q F d Q tmid delta) i j.
Let TT i j := T (@ie_Ap F d A RESET tmid delta inst) i j.
Section Rows.
Variable h : 'M[F]_(1, d).
Lemma row_C i (M : 'M[F]_d) j : (h *m (M *m C i)) 0 j = (h *m (M *m (mc i (e_ j) *m (h_ j)^T))) 0 0.
Proof. by rewrite !mulmxA mul_colsE !mulmxA. Qed.
Lemma row_phi i (M : 'M[F]_d) j : (h *m (M *m phi i)) 0 j = (h *m (M *m ((TT (e_ j) i)^T *m (h_ j)^T))) 0 0.
Proof. by rewrite !mulmxA mul_colsE !mulmxA. Qed.
Lemma row_star_C i s j : (h *m star_C i s) 0 j =
  if (e_ j <= i)%N then (h *m (A 0 (s - t`_i) *m rs i *m (mc i (e_ j) *m (h_ j)^T))) 0 0
  else (h *m (star_S i s *m (A 0 (t`_i.+1 - s))^T *m ((TT (e_ j) i.+1)^T *m (h_ j)^T))) 0 0.
Proof.
have e1 (M : 'M[F]_(d, N)) : (h *m (M *m E i.+1)) 0 j = (h *m M) 0 j *+ (e_ j < i.+1)%N.
  by rewrite mulmxA mulE.
have e2 (M : 'M[F]_(d, N)) : (h *m (M *m (1%:M - E i.+1))) 0 j = (h *m M) 0 j *+ (i < e_ j)%N.
  by rewrite mulmxA mulE'.
rewrite /star_C [h *m (_ + _)]mulmxDr [LHS]mxE e1 e2 row_C row_phi ltnS.
by case: leqP => _; rewrite ?mulr1n ?mulr0n ?addr0 ?add0r.
Qed.
End Rows.

(** ** The state at any test time *)
Section Point.
Variable s : F.
Hypothesis tsort : sorted <=%R t.
Hypothesis tsize : size t = K.
Hypothesis steps : forall i, (i.+1 < K)%N -> t`_i <= s -> s <= t`_i.+1 ->
  A 0 (t`_i.+1 - s) *m A 0 (s - t`_i) = A 0 (Dt i) /\
  A 0 (t`_i.+1 - s) *m Q 0 (s - t`_i) *m (A 0 (t`_i.+1 - s))^T + Q 0 (t`_i.+1 - s) = Q 0 (Dt i).

Variable Sg' : 'M[F]_N.
Hypothesis SgE : Sg = Sg'.

Definition point_is (S' : 'M[F]_d) (C' : 'M[F]_(d, N)) : Prop :=
  @pr_point F k c s = (post_mean C' Sg' yv, post_cov S' C' Sg').

Lemma star_point : exists S' C', point_is S' C' /\
  [\/ [/\ s <= t`_0, S' = P0 & forall (h : 'M[F]_(1, d)) (j : 'I_N), (h *m C') 0 j
          = (h *m (P0 *m (A 0 (t`_0 - s))^T *m ((TT (e_ j) 0)^T *m (h_ j)^T))) 0 0],
      [/\ t`_K.-1 <= s, S' = star_S K.-1 s & forall (h : 'M[F]_(1, d)) (j : 'I_N), (h *m C') 0 j
          = (h *m (A 0 (s - t`_K.-1) *m rs K.-1 *m (mc K.-1 (e_ j) *m (h_ j)^T))) 0 0] |
      exists i, [/\ (i.+1 < K)%N, t`_i <= s, s <= t`_i.+1, S' = star_S i s & forall (h : 'M[F]_(1, d)) (j : 'I_N), (h *m C') 0 j
        = if (e_ j <= i)%N then (h *m (A 0 (s - t`_i) *m rs i *m (mc i (e_ j) *m (h_ j)^T))) 0 0
          else (h *m (star_S i s *m (A 0 (t`_i.+1 - s))^T *m ((TT (e_ j) i.+1)^T *m (h_ j)^T))) 0 0]].
Proof.
have K0 : (0 < K)%N by apply: ie_K0.
have cnt j : (j < K)%N -> (j < searchsorted_right t s)%N = (t`_j <= s).
  by move=> hj; apply: sorted_count => //; rewrite tsize.
rewrite /point_is -SgE /pr_point -[c_t c]/t tsize; move: (searchsorted_right t s) cnt => kn cnt.
case: ifP => [|/negbT]; rewrite ?leqn0 -?lt0n => hq.
  exists P0, (star_C0 s); split; first exact: star_before.
  constructor 1; split=> // [|h j]; last exact: row_phi.
  by apply: ltW; rewrite ltNge -cnt // (eqP hq).
case: leqP => hK.
  have hl : (K.-1 < K)%N by rewrite prednK.
  eexists; eexists; split; first exact: (star_last s hl (erefl _)).
  constructor 2; split=> // [|h j]; last exact: row_C.
  by rewrite -cnt //; apply: leq_trans hK.
have e : kn.-1.+1 = kn by apply: prednK.
have h1 : t`_kn.-1 <= s by rewrite -cnt ?e //; apply: ltnW.
have h2 : s <= t`_kn.-1.+1 by rewrite e; apply: ltW; rewrite ltNge -cnt // ltnn.
have h0 : (kn.-1.+1 < K)%N by rewrite e.
have [h3 h4] := steps h0 h1 h2.
exists (star_S kn.-1 s), (star_C kn.-1 s); split.
  by rewrite -[in @pr_smooth F k c kn s _]e; apply: star_between => //; apply: ltnW.
by constructor 3; exists kn.-1; split=> // h j; exact: row_star_C.
Qed.

(** Seen through h. *)
Variables (h : 'M[F]_(1, d)) (v : F) (g : 'I_N -> F).
Hypothesis v_before : s <= t`_0 -> h *m P0 *m h^T = v%:M.
Hypothesis g_before : s <= t`_0 -> forall j,
  (h *m (P0 *m (A 0 (t`_0 - s))^T *m ((TT (e_ j) 0)^T *m (h_ j)^T))) 0 0 = g j.
Hypothesis v_after : forall i, (i < K)%N -> t`_i <= s -> ((i.+1 < K)%N -> s <= t`_i.+1) ->
  h *m star_S i s *m h^T = v%:M.
Hypothesis g_past : forall i, (i < K)%N -> t`_i <= s -> ((i.+1 < K)%N -> s <= t`_i.+1) -> 
  forall j, (e_ j <= i)%N -> (h *m (A 0 (s - t`_i) *m rs i *m (mc i (e_ j) *m (h_ j)^T))) 0 0 = g j.
Hypothesis g_future : forall i, (i.+1 < K)%N -> t`_i <= s -> s <= t`_i.+1 -> forall j, (i < e_ j)%N ->
  (h *m (star_S i s *m (A 0 (t`_i.+1 - s))^T *m ((TT (e_ j) i.+1)^T *m (h_ j)^T))) 0 0 = g j.

Lemma point_seen : h *m (@pr_point F k c s).1 = post_mean (\row_j g j) Sg' yv /\
  h *m (@pr_point F k c s).2 *m h^T = post_cov v%:M (\row_j g j) Sg'.
Proof.
have [S' [C' [-> hc]]] := star_point; rewrite /=.
have hK j : (e_ j < K)%N by apply: ie_eK.
have kK i : i = K.-1 -> (i.+1 < K)%N -> false.
  by move=> ->; rewrite prednK ?ie_K0 // ltnn.
have lK : (K.-1 < K)%N by rewrite prednK ?ie_K0.
have hS : h *m S' *m h^T = v%:M.
  case: hc => [[h1 -> _]|[h1 -> _]|[i [hi h1 h2 -> _]]]; first exact: v_before.
  - by apply: v_after => // /(kK _ (erefl _)).
  - by apply: v_after => //; apply: ltnW.
have hC : h *m C' = \row_j g j.
  apply/matrixP=> a j; rewrite (ord1 a) [RHS]mxE.
  case: hc => [[h1 _ ->]|[h1 _ ->]|[i [hi h1 h2 _ ->]]]; first exact: g_before.
  - apply: g_past => // [/(kK _ (erefl _)) //|]; by rewrite -ltnS prednK ?ie_K0.
  - by case: leqP => ij; [apply: g_past => //; apply: ltnW|apply: g_future].
rewrite /post_mean /post_cov -hC -hS trmx_mul; split; first by rewrite !mulmxA.
by rewrite mulmxBr mulmxBl !mulmxA.
Qed.
End Point.

End IntPredict.
