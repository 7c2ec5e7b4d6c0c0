(** One-step algebra of Gaussian conditioning.

    A family of N scalar observations y has covariance Sigma.  A projector E
    selects the observations processed so far.  A state with prior covariance
    S and cross-covariance C (columns = observations) is summarised by weights
    W: the conditional mean is W y and the conditional covariance S - W C^T.
    The lemmas below say that a Kalman prediction, a Kalman update and an RTS
    smoothing step preserve that description.  Nothing here mentions /repo. *)
From mathcomp Require Import all_ssreflect all_algebra.
From Verif.Prelude Require Import Zmod Psd.
Set Implicit Arguments.
Unset Strict Implicit.
Unset Printing Implicit Defensive.
Import Order.TTheory GRing.Theory Num.Theory.
Local Open Scope ring_scope.

Section Gauss.
Variable F : realFieldType.
Variables (d N : nat).
Implicit Types (W C : 'M[F]_(d, N)) (P S : 'M[F]_d) (E : 'M[F]_N).

Definition isproj E := E^T = E /\ E *m E = E.

(** W are the regression weights of a state on the observations selected by E,
    and P is its conditional covariance. *)
Definition winv (Sg E : 'M[F]_N) S C W P : Prop :=
  [/\ W *m E = W, W *m Sg *m E = C *m E & P = S - W *m C^T].

Section OneStep.
Variables (Sg : 'M[F]_N).
Hypothesis sSg : Sg^T = Sg.

Lemma winv_init S C : winv Sg 0 S C 0 S.
Proof. by split; rewrite ?mulmx0 ?mul0mx ?subr0. Qed.

Lemma winv_predict E S C W P (B : 'M[F]_d) Q S' C' :
  isproj E -> winv Sg E S C W P ->
  C' *m E = B *m C *m E -> S' = B *m S *m B^T + Q ->
  winv Sg E S' C' (B *m W) (B *m P *m B^T + Q).
Proof.
move=> [sE _] [WE WSE ->] CE ->; split.
- by rewrite -mulmxA WE.
- by rewrite -!mulmxA [W *m (_ *m _)]mulmxA WSE CE !mulmxA.
have -> : B *m W *m C'^T = B *m (W *m C^T) *m B^T.
  rewrite -{1}WE -!mulmxA; congr (_ *m _).
  have -> : E *m C'^T = (C' *m E)^T by rewrite trmx_mul sE.
  by rewrite CE !trmx_mul sE !mulmxA WE.
by rewrite mulmxBr mulmxBl addrAC.
Qed.

Section Update.
Variables (E : 'M[F]_N) (n : 'I_N) (h : 'M[F]_(1, d)) (r : 'M[F]_1).
Variables (S : 'M[F]_d) (C W : 'M[F]_(d, N)) (P : 'M[F]_d).
Variable dn : 'M[F]_(1, N).
Hypothesis dn_def : dn = delta_mx 0 n.
Hypotheses (pE : isproj E) (hW : winv Sg E S C W P).
Hypothesis nE : dn *m E = 0.
Hypothesis sS : S^T = S.
Hypothesis rowE : dn *m Sg *m E = h *m C *m E.
Hypothesis diagS : dn *m Sg *m dn^T = h *m S *m h^T + r.
Hypothesis colC : C *m dn^T = S *m h^T.
Variables (Sk : 'M[F]_1) (K : 'M[F]_(d, 1)).
Hypothesis SkE : Sk = h *m P *m h^T + r.
Hypothesis uS : Sk \in unitmx.
Hypothesis KS : K *m Sk = P *m h^T.
Variables (g : 'M[F]_(1, N)) (E' : 'M[F]_N).
Hypotheses (gdef : g = dn - h *m W) (E'def : E' = E + dn^T *m dn).

Lemma dndn : dn *m dn^T = 1%:M.
Proof. by rewrite dn_def trmx_delta mul_delta_mx; apply: mx11_eq; rewrite !mxE. Qed.

Lemma En0 : E *m dn^T = 0.
Proof. by rewrite -[E](proj1 pE) -trmx_mul nE trmx0. Qed.

Lemma isproj_upd : isproj E'.
Proof.
case: pE => sE EE; split; first by rewrite E'def linearD /= sE trmx_mul trmxK.
have a : dn^T *m dn *m E = 0 by rewrite -mulmxA nE mulmx0.
have b : E *m (dn^T *m dn) = 0 by rewrite mulmxA En0 mul0mx.
have c : dn^T *m dn *m (dn^T *m dn) = dn^T *m dn.
  by rewrite -mulmxA [dn *m (_ *m _)]mulmxA dndn mul1mx.
by rewrite E'def mulmxDr !mulmxDl EE a b c add0r addr0.
Qed.

Lemma Wn0 : W *m dn^T = 0.
Proof. by case: hW => WE _ _; rewrite -WE -mulmxA En0 mulmx0. Qed.

Lemma WSn : W *m Sg *m dn^T = W *m C^T *m h^T.
Proof.
case: hW => WE _ _; rewrite -{1}WE -!mulmxA.
have -> : E *m (Sg *m dn^T) = (dn *m Sg *m E)^T by rewrite !trmx_mul sSg (proj1 pE).
by rewrite rowE !trmx_mul (proj1 pE) !mulmxA WE.
Qed.

Lemma gSE : g *m Sg *m E = 0.
Proof.
case: hW => WE WSE _; rewrite gdef !mulmxBl rowE -!mulmxA [W *m _]mulmxA WSE.
by rewrite subrr.
Qed.

Lemma symP : P^T = P.
Proof.
case: hW => WE WSE ->; rewrite linearB /= sS trmx_mul trmxK; congr (_ - _).
have e : W *m C^T = W *m Sg *m W^T.
  rewrite -{1}WE -mulmxA -{1}(proj1 pE) -trmx_mul -WSE !trmx_mul (proj1 pE) sSg.
  by rewrite !mulmxA WE.
by rewrite -[LHS]trmxK trmx_mul trmxK e !trmx_mul trmxK sSg mulmxA.
Qed.

Lemma gSn : g *m Sg *m dn^T = Sk.
Proof.
rewrite gdef !mulmxBl diagS -!mulmxA [W *m _]mulmxA WSn SkE.
case: hW => _ _ ->; rewrite mulmxBr mulmxBl !mulmxA.
by rewrite addrAC.
Qed.

Lemma gn : g *m dn^T = 1%:M.
Proof. by rewrite gdef mulmxBl dndn -mulmxA Wn0 mulmx0 subr0. Qed.

Lemma gE' : g *m E' = g.
Proof.
case: hW => WE _ _; rewrite E'def mulmxDr mulmxA gn mul1mx.
by rewrite gdef mulmxBl nE -mulmxA WE sub0r addrC.
Qed.

Lemma gSE' : g *m Sg *m E' = Sk *m dn.
Proof. by rewrite E'def mulmxDr gSE add0r mulmxA gSn. Qed.

Lemma winv_update : winv Sg E' S C (W + K *m g) (P - K *m Sk *m K^T).
Proof.
case: (hW) => WE WSE PE; split.
- by rewrite mulmxDl -mulmxA gE' E'def mulmxDr WE mulmxA Wn0 mul0mx addr0.
- rewrite !mulmxDl -!mulmxA [g *m (_ *m _)]mulmxA gSE' mulmxA.
  rewrite [K *m _]mulmxA KS E'def !mulmxDr WSE -addrA; congr (_ + _).
  rewrite !mulmxA WSn colC -!mulmxDl; congr (_ *m _ *m _).
  by rewrite PE addrC subrK.
rewrite mulmxDl opprD addrA -PE; congr (_ - _).
have KE : K = P *m h^T *m invmx Sk by rewrite -KS mulmxK.
have sK : K^T = invmx Sk *m (h *m P).
  by rewrite KE !trmx_mul trmxK symP trmx_inv tr11.
rewrite sK -!mulmxA [Sk *m _]mulmxA mulmxV // mul1mx; congr (_ *m _).
rewrite gdef mulmxBl PE mulmxBr -mulmxA; congr (_ - _).
by rewrite -[RHS]trmxK trmx_mul trmxK colC trmx_mul trmxK sS.
Qed.

(** Masked covariance: Sigma on the processed observations, identity elsewhere. *)
Definition masked (E0 : 'M[F]_N) := E0 *m Sg *m E0 + (1%:M - E0).

Lemma det_1uv (u : 'M[F]_(N, 1)) (v : 'M[F]_(1, N)) :
  \det (1%:M + u *m v) = 1 + (v *m u) 0 0.
Proof.
have e : block_mx 1%:M 0 v 1%:M *m block_mx (1%:M + u *m v) u 0 1%:M
         = block_mx 1%:M u 0 (1%:M + v *m u) *m block_mx 1%:M 0 v 1%:M.
  rewrite !mulmx_block ?(mul0mx, mul1mx, mulmx0, mulmx1, addr0, add0r).
  by rewrite !mulmxDr !mulmxDl !mulmx1 !mul1mx mulmxA [v + _]addrC [1%:M + v *m u]addrC.
have := congr1 determinant e; rewrite !det_mulmx !det_lblock !det_ublock !det1.
by rewrite !mulr1 !mul1r => ->; rewrite det_mx11 mxE mxE eqxx.
Qed.

Lemma det_update : \det (masked E') = Sk 0 0 * \det (masked E).
Proof.
case: (pE) => sE EE; case: (hW) => WE WSE PE.
have [a aE] : {a | a = E *m Sg *m dn^T} by exists (E *m Sg *m dn^T).
have [mk mkE] : {mk | mk = masked E} by exists (masked E).
have [mk' mkE'] : {mk' | mk' = masked E'} by exists (masked E').
have [u uE] : {u | u = h *m W} by exists (h *m W).
have aT : a^T = dn *m Sg *m E by rewrite aE !trmx_mul trmxK sSg sE mulmxA.
have usE : u *m E = u by rewrite uE -mulmxA WE.
have un : u *m dn^T = 0 by rewrite uE -mulmxA Wn0 mulmx0.
have hWa : u *m Sg *m E = a^T.
  by rewrite aT rowE uE -!mulmxA [W *m _]mulmxA WSE.
have um : u *m mk = a^T.
  by rewrite mkE /masked mulmxDr mulmxBr mulmx1 usE subrr addr0 !mulmxA usE.
have mkn : mk *m dn^T = dn^T.
  by rewrite mkE /masked mulmxDl mulmxBl -!mulmxA En0 !mulmx0 mul1mx add0r subr0.
have smk : mk^T = mk.
  by rewrite mkE /masked !linearD /= linearN /= trmx1 sE !trmx_mul sE sSg mulmxA.
have mu : mk *m u^T = a by rewrite -[mk]smk -trmx_mul um trmxK.
have nu : dn *m u^T = 0 by rewrite -[dn]trmxK -trmx_mul un trmx0.
have mE' : mk' = mk + (a *m dn + dn^T *m a^T
                + dn^T *m (dn *m Sg *m dn^T - 1%:M) *m dn).
  by rewrite mkE mkE' /masked aT aE E'def; mxzmod.
have SkE' : Sk - 1%:M = dn *m Sg *m dn^T - 1%:M - u *m a.
  rewrite -gSn gdef !mulmxBl addrAC -uE; congr (_ - _ - _).
  by rewrite aE !mulmxA usE.
have e : (1%:M - dn^T *m u) *m mk' *m (1%:M - u^T *m dn)
         = mk *m (1%:M + dn^T *m ((Sk - 1%:M) *m dn)).
  have ML : (1%:M - dn^T *m u) *m mk' = mk + a *m dn + dn^T *m (Sk - 1%:M) *m dn.
    rewrite mulmxBl mul1mx -[dn^T *m u *m _]mulmxA.
    have -> : u *m mk' = a^T + u *m a *m dn.
      by rewrite mE' !mulmxDr um; repeat (progress mxdist); rewrite un; mxzmod.
    by rewrite mE' SkE'; mxzmod.
  rewrite ML [in RHS]mulmxDr mulmx1 [in RHS]mulmxA mkn mulmxBr mulmx1.
  by repeat (progress mxdist); rewrite mu -![_ *m dn *m u^T]mulmxA nu; mxzmod.
have detM : \det (1%:M - dn^T *m u) = 1.
  by rewrite -mulmxN det_1uv mulNmx un oppr0 mxE addr0.
have detM' : \det (1%:M - u^T *m dn) = 1.
  by rewrite -det_tr linearB /= trmx1 trmx_mul trmxK.
have := congr1 determinant e; rewrite !det_mulmx detM detM' mul1r mulr1 mkE mkE' => ->.
rewrite mulrC det_1uv -mulmxA dndn mulmx1 mxE [X in _ + (_ + X)]mxE.
by rewrite [1%:M 0 0]mxE eqxx addrCA subrr addr0.
Qed.

(** The normalised quadratic form. *)
Definition qinv (E0 : 'M[F]_N) (y : 'cV[F]_N) (b : 'M[F]_(1, N)) (q : 'M[F]_1) :=
  [/\ b *m E0 = b, b *m Sg *m E0 = y^T *m E0 & q = b *m y].

Lemma qinv_update (y : 'cV[F]_N) b q :
  qinv E y b q ->
  forall v, v = g *m y ->
  qinv E' y (b + v^T *m invmx Sk *m g) (q + v^T *m invmx Sk *m v).
Proof.
case=> bE bSE qE v vE; case: (pE) => sE EE; case: (hW) => WE WSE PE; split.
- rewrite mulmxDl -[_ *m g *m _]mulmxA gE' E'def mulmxDr bE mulmxA.
  by rewrite -{2}bE -[b *m E *m _]mulmxA En0 mulmx0 mul0mx addr0.
- rewrite !mulmxDl -!mulmxA [g *m (_ *m _)]mulmxA gSE' mulmxA.
  rewrite [invmx _ *m _]mulmxA mulVmx // mul1mx E'def !mulmxDr bSE -addrA.
  congr (_ + _); rewrite !mulmxA -mulmxDl; congr (_ *m _).
  rewrite vE gdef mulmxBl.
  have -> : b *m Sg *m dn^T = (h *m W *m y)^T.
    rewrite -{1}bE -!mulmxA.
    have -> : E *m (Sg *m dn^T) = (dn *m Sg *m E)^T by rewrite !trmx_mul sSg sE.
    rewrite rowE -!mulmxA -WSE !trmx_mul sE sSg !mulmxA bE.
    have WT : E *m W^T = W^T by rewrite -{1}sE -trmx_mul WE.
    by rewrite -[in LHS]WT !mulmxA bSE -[y^T *m E *m _]mulmxA WT.
  by rewrite linearB /= addrC subrK trmx_mul.
- by rewrite mulmxDl qE -!mulmxA -vE.
Qed.

End Update.

(** RTS smoothing, interpolation and retrodiction. [Ap] is the transition from
    the state at hand to the next one and [phi] expresses how the observations
    not yet processed depend on the next state. *)
Section Smooth.
Variables (E : 'M[F]_N) (S Sn : 'M[F]_d) (C Cn W : 'M[F]_(d, N)) (P : 'M[F]_d).
Variables (Ap Q : 'M[F]_d) (phi : 'M[F]_(d, N)).
Variable Eb : 'M[F]_N.
Hypothesis Ebdef : Eb = 1%:M - E.
Hypotheses (pE : isproj E) (hW : winv Sg E S C W P).
Hypothesis CnE : Cn *m E = Ap *m C *m E.
Hypothesis SnE : Sn = Ap *m S *m Ap^T + Q.
Hypothesis CnEb : Cn *m Eb = Sn *m phi *m Eb.
Hypothesis CEb : C *m Eb = S *m Ap^T *m phi *m Eb.
Hypothesis SgEb : E *m Sg *m Eb = E *m C^T *m Ap^T *m phi *m Eb.
Variable Pn : 'M[F]_d.
Hypothesis Pndef : Pn = Ap *m P *m Ap^T + Q.
Variable G : 'M[F]_d.
Hypothesis GP : G *m Pn = P *m Ap^T.
Variables (Wh : 'M[F]_(d, N)) (Ph : 'M[F]_d).
Hypothesis hWh : Wh *m Sg = Cn.
Hypothesis hPh : Ph = Sn - Wh *m Cn^T.

Lemma smooth_weights : (W + G *m (Wh - Ap *m W)) *m Sg = C.
Proof.
case: (hW) => WE WSE PE.
rewrite -[LHS]mulmx1 -[C in RHS]mulmx1.
have -> : 1%:M = E + Eb :> 'M_N by rewrite Ebdef addrCA subrr addr0.
rewrite ![_ *m (E + Eb)]mulmxDr; congr (_ + _).
  rewrite !mulmxDl WSE -!mulmxA mulmxBl [Sg *m E]/(Sg *m E) [Wh *m _]mulmxA hWh CnE.
  rewrite -[Ap *m W *m _]mulmxA [W *m (_ *m _)]mulmxA WSE mulmxA subrr mulmx0.
  by rewrite addr0.
rewrite !mulmxDl CEb.
have WSEb : W *m Sg *m Eb = W *m C^T *m Ap^T *m phi *m Eb.
  rewrite -{1}WE -!mulmxA [E *m (_ *m _)]mulmxA SgEb -!mulmxA mulmxA WE.
  by rewrite !mulmxA.
rewrite WSEb -!mulmxA mulmxBl [Wh *m (_ *m _)]mulmxA hWh CnEb.
rewrite -[Ap *m W *m _]mulmxA [W *m (Sg *m _)]mulmxA WSEb.
have -> : Sn *m phi *m Eb - Ap *m (W *m C^T *m Ap^T *m phi *m Eb) = Pn *m (phi *m Eb).
  by rewrite Pndef PE SnE; mxzmod.
by rewrite [G *m _]mulmxA GP PE; mxzmod.
Qed.

Lemma smooth_cov :
  P + G *m (Ph - Pn) *m G^T = S - (W + G *m (Wh - Ap *m W)) *m C^T.
Proof.
case: (pE) => sE EE; case: (hW) => WE WSE PE.
rewrite mulmxDl opprD addrA -PE; congr (_ + _).
have hpred := winv_predict pE hW CnE SnE.
have -> : Pn = Sn - Ap *m W *m Cn^T by rewrite Pndef; case: hpred.
have -> : Ph - (Sn - Ap *m W *m Cn^T) = - ((Wh - Ap *m W) *m Cn^T).
  rewrite hPh; mxzmod.
rewrite mulmxN mulNmx; congr (- _); rewrite -!mulmxA; congr (_ *m _).
apply/eqP; rewrite -subr_eq0 -mulmxBr; apply/eqP.
have CC : C = W *m Sg + G *m (Cn - Ap *m W *m Sg).
  by rewrite -{1}smooth_weights -{1}hWh; mxzmod.
have EW : E *m W^T = W^T by rewrite -{1}sE -trmx_mul WE.
have AW : Ap *m W *m Sg *m E = Ap *m C *m E.
  by rewrite -!mulmxA [W *m _]mulmxA WSE.
have DS : (Wh - Ap *m W) *m Sg *m W^T = 0.
  by rewrite -EW !mulmxBl hWh !mulmxA CnE AW subrr.
have -> : Cn^T *m G^T - C^T = Sg *m W^T *m (Ap^T *m G^T - 1%:M).
  have e : G *m Cn - C = (G *m Ap - 1%:M) *m W *m Sg by rewrite {1}CC; mxzmod.
  rewrite -trmx_mul -linearB /= e !trmx_mul sSg linearB /= trmx1 trmx_mul.
  by rewrite mulmxA.
by rewrite !mulmxA DS !mul0mx.
Qed.

End Smooth.
End OneStep.
End Gauss.
