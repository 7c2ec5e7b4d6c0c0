(** Conditioning on two exposures of length 0: the mean of the first is wrong. *)
From Coq Require Import Reals String Lra.
From mathcomp Require Import all_ssreflect all_algebra.
From Coquelicot Require Import Coquelicot.
From Verif.Prelude Require Import Rstruct Psd.
From Verif.Spec Require Import Expm Gp WfKernel Cov CovOf LogNormal Data IntCov WfIntegrated Exposures Smoothable FirstOpen.
From Verif.Model Require Import Array Jax Helpers Ssm Sequential Parallel BaseKernels IntegratedKernels Kernel Integrated
  Frontend SequentialOps Gp.
From Verif.Proofs Require Import ParIntFront GpExt VanLoan IntLeaf Joint Leaves Fit LagInt KernelProps FitExample IntegratedThms IntBook
  WindowCov WindowKernel IntWide IntPd FitInt IntThms IntExample FitIntCond IntCondThms IntNarrowThms ParIntRefute IntLast.
Set Implicit Arguments.
Unset Strict Implicit.
Unset Printing Implicit Defensive.
Import GRing.Theory.


(** ** Two exposures of length 0 at times 0 and 1, an exponential kernel *)
Local Open Scope R_scope.
Definition k_last : kernel := IntegratedExp 1 1 1 "e".
Lemma k_last_wf : wf_integrated k_last.
Proof. by rewrite /=; do 2!split=> //; toR; lra. Qed.

Lemma block2 (a b c d : 'M[R]_1) :
  block_mx a b c d = mat (1 + 1) (1 + 1) [:: [:: a 0%R 0%R; b 0%R 0%R]; [:: c 0%R 0%R; d 0%R 0%R]].
Proof.
apply/matrixP=> i j; case: (split_ordP i) => i' ->; case: (split_ordP j) => j' ->;
  by rewrite ?(block_mxEul, block_mxEur, block_mxEdl, block_mxEdr) !mxE !ord1.
Qed.

Definition last_A (s : R) : 'M[R]_2 := mat 2 2 [:: [:: exp (- s); 0]; [:: 1 - exp (- s); 1]].
Definition last_Q (s : R) : 'M[R]_2 :=
  let e := exp (- s) in
  mat 2 2 [:: [:: 1 - e * e; (1 - e) * (1 - e)]; [:: (1 - e) * (1 - e); 2 * s - 3 + 4 * e - e * e]].
Definition last_F : 'M[R]_2 := mat 2 2 [:: [:: - 1; 0]; [:: 1; 0]].

Lemma last_model : let m := denote k_last in
  [/\ mA m (CT 0) (CT 1) = last_A 1, mQ m (CT 0) (CT 1) = last_Q 1,
      mPinf m = 1%:M%R, mH m (CX 0 0 0) = mat 1 2 [:: [:: 1; 0]] &
      mReset m 0 = mat 2 2 [:: [:: 1; 0]; [:: 0; 0]]].
Proof.
move=> m.
have F0 : Rltb 0 0 = false by case: (RltbP 0 0) => // h; exfalso; lra.
have FE : mF m = last_F.
  by rewrite /= block2 /last_F; congr mat; rewrite !mxE /=; congr [:: [:: _; _]; [:: _; _]]; toR; lra.
have WE : (mL m *m mQc m *m (mL m)^T)%R = mat 2 2 [:: [:: 2; 0]; [:: 0; 0]].
  rewrite /= tr_col_mx trmx0 mul_col_mx mul0mx mul_col_row !mul0mx mulmx0 block2.
  by congr mat; mxsimp; congr [:: [:: _; _]; [:: _; _]]; rewrite /sq; toR; lra.
have [wb sb] := k_last_wf.
have l1 : lag (CT 0) (CT 1) = 1 by rewrite /lag /=; lra.
split.
- have ht : kernel_transition false k_last (CT 0) (CT 1) = inr (mA m (CT 0) (CT 1)) by [].
  have [-> _] := @int_transition false k_last _ _ (CT 0) (CT 1) (CT 0) _ (erefl _) wb sb ht.
  rewrite l1 -/m FE; symmetry; apply: (@ode_expm 2 last_F last_A).
    by move=> s; apply: mxd_mat => i j; ordcase i; ordcase j; rewrite /=; auto_derive => //; mxsimp; ring.
  by mxeq; rewrite ?Ropp_0 ?exp_0 //; lra.
- have := @int_noise k_last _ _ (CT 0) (CT 1) (CT 0) (erefl _) wb sb.
  rewrite l1 => /(_ Rle_0_1 I I) [-> _].
  have h := @lyap_flow _ _ (mF m) (mL m) (mQc m) last_Q.
  have Q00 : last_Q 0 = 0%R by mxeq; rewrite Ropp_0 exp_0; lra.
  rewrite h ?Q00 ?mulmx0 ?mul0mx ?add0r // => s; rewrite WE FE.
  by apply: mxd_mat => i j; ordcase i; ordcase j; rewrite /=; auto_derive => //; mxsimp; ring.
- by rewrite /= block2; mxeq; rewrite /sq; toR; lra.
- by rewrite /= F0; mxeq.
- by rewrite /=; mxeq; ring.
Qed.

Lemma rowE2 : mat 1 2 [:: [:: 1; 0]] = delta_mx 0%R 0%R :> 'M[R]_(1, 2).
Proof. by apply/matrixP=> r c; rewrite !mxE ord1; elim/ord2: c. Qed.
Lemma inno2 (P : 'M[R]_2) (H := mat 1 2 [:: [:: 1; 0]]) : (H *m P *m H^T + 1%:M)%R = (P 0 0 + 1)%:M%R.
Proof. by rewrite /H rowE2 trmx_delta -rowE -colE; apply/matrixP=> r c; rewrite !ord1 !mxE. Qed.
Lemma gain2 (P : 'M[R]_2) :
  ls_gain (F:=[realFieldType of R]) (mat 1 2 [:: [:: 1; 0]]) P = ((P 0 0 + 1)^-1 *: col 0 P)%R.
Proof.
rewrite /ls_gain /solve inno2 tr_scalar_mx ParStep.inv11s mul_scalar_mx linearZ /= trmxK; congr (_ *: _)%R.
by rewrite rowE2 trmx_delta -colE.
Qed.

Definition y_last : seq R := [:: 0; 1].
Definition diag_last : option farray := Some (Vector [:: 1; 1]).
Lemma y_last_valid : valid_exposures 1 X_zero diag_last y_last.
Proof.
split=> //.
- by case=> [|[|i]] //= _; toR; lra.
- by case=> [|[|i]].
- by case=> [|[|i]] // [|[|j]] //= _ _; rewrite /begin /finish /=; toR; lra.
- by case=> [|[|i]] //= _; toR; lra.
Qed.

Lemma last_kap i j : (i < 2)%N -> (j < 2)%N ->
  integrated_cov (Exp 1 1 "e") (nth (CT 0) (coord_list X_zero) i) (nth (CT 0) (coord_list X_zero) j)
  = if i == j then 1 else exp (- 1).
Proof.
have nl : ~ 0 < 0 by lra.
have c0 : cov_exp 1 1 (Rabs 0) = 1.
  by rewrite Rabs_R0 /cov_exp; have -> : - 0 / 1 = 0 by [field|]; rewrite exp_0; toR; lra.
have c1 : cov_exp 1 1 (Rabs 1) = exp (- 1).
  by rewrite Rabs_R1 /cov_exp; have -> : - (1) / 1 = - 1 by [field|]; toR; lra.
have e00 : 0 - 0 = 0 by lra. have e01 : 0 - 1 = - 1 by lra. have e10 : 1 - 0 = 1 by lra.
have e11 : 1 - 1 = 0 by lra.
case: i j => [|[|i]] // [|[|j]] // _ _; rewrite /integrated_cov /mean_cov !emP //= ?e00 ?e01 ?e10 ?e11 //.
by rewrite Rabs_Ropp.
Qed.

Lemma last_gp_mean : let e := exp (- 1) in
  gp_mean (CT 0) (integrated_cov (Exp 1 1 "e")) (coord_list X_zero) [:: 1; 1] y_last (CX 0 0 0) * (4 - e * e) = e.
Proof.
move=> e; rewrite gp_meanE.
have -> : size (coord_list X_zero) = 2%N by [].
have sk := plain_steps (X:=X_zero) k_last_wf I.
have := fi_det_neq0 k_last_wf (erefl _) y_last_valid sk; rewrite gp_detE -[size _]/2%N.
set K := (fun i j => _); rewrite -[variances _ _]/[:: 1; 1] => hd.
pose S := dcov 2 K [:: 1; 1].
have uS : S \in unitmx by rewrite unitmxE unitfE; apply/eqP.
rewrite /gpm -/S /post_mean; set c := (\row_(j < 2) _)%R.
pose w := (c *m invmx S)%R; rewrite -/w.
have : (w *m S)%R = c by rewrite mulmxKV.
move/matrixP=> h; have h0 := h 0%R 0%R; have h1 := h 0%R 1%R; move: h0 h1.
rewrite /S /c; mxsimp; rewrite /K !last_kap //=.
rewrite -/e; set x := 1 * _ + _; set z := 1 * _ + _ => h0 h1.
have {h0} h0 : e * (x * 2 + z * e) = e * 1 by congr Rmult; rewrite -[RHS]h0; ring.
have {h1} h1 : x * e + z * 2 = e by rewrite -[RHS]h1; ring.
have -> : (x * 0 + (z * 1 + R0)) * (4 - e * e) = 2 * (x * e + z * 2) - e * (x * 2 + z * e) by ring.
by rewrite h1 h0; ring.
Qed.

(** The last step: V = [[v, w], [w, _]], u V = [e / 2, (1 - e) / 2]. *)
Lemma last_scalar e v w u0 u1 x g : 0 < e -> e < 1 -> v = 1 - e * e / 2 -> w = (1 - e) * (1 - e / 2) ->
  u0 * v + u1 * w = e / 2 -> u0 * w + u1 * x = (1 - e) / 2 -> g * (4 - e * e) = e ->
  u0 * (v / (v + 1)) <> g.
Proof.
move=> e0 e1 ev ew h0 h1 hg h.
have v1 : v + 1 = (4 - e * e) / 2 by rewrite ev; field.
have p : 0 < 4 - e * e by nra.
have hv : u0 * v = e / 2.
  have -> : u0 * v = u0 * (v / (v + 1)) * (v + 1) by field; rewrite v1; lra.
  by rewrite h v1; transitivity (g * (4 - e * e) / 2); [field|rewrite hg].
have w0 : 0 < w by rewrite ew; apply: Rmult_lt_0_compat; lra.
have u0' : u1 = 0 by apply: (Rmult_eq_reg_r w); lra.
rewrite u0' in h1.
have : e / 2 * w = (1 - e) / 2 * v by rewrite -hv; transitivity (u0 * w * v); [ring|congr Rmult; lra].
rewrite ew ev => h2; have p2 : 0 < (1 - e) * (1 - e) by apply: Rmult_lt_0_compat; lra.
have : (1 - e) * (1 - e) = 2 * ((1 - e) / 2 * (1 - e * e / 2)) - 2 * (e / 2 * ((1 - e) * (1 - e / 2))) by field.
by lra.
Qed.

Lemma last_value g : let e := exp (- 1) in
  let H := mat 1 2 [:: [:: 1; 0]] in let Re := mat 2 2 [:: [:: 1; 0]; [:: 0; 0]] in
  @ls_pred [realFieldType of R] 2 (last_A 1) (last_Q 1) H Re 1%:M%R \in unitmx ->
  g * (4 - e * e) = e ->
  proj_mean H (@ls_mean [realFieldType of R] 2 (last_A 1) (last_Q 1) H Re 1%:M%R) <> g.
Proof.
move=> e H Re uV hg; have eE : exp (Ropp 1) = e by congr exp; lra.
have P1E : @ls_upd [realFieldType of R] 2 H 1%:M%R = mat 2 2 [:: [:: 1 / 2; 0]; [:: 0; 1]].
  have d1 : (1%:M : 'M[R]_2)%R 0%R 0%R = 1 by rewrite !mxE.
  have gE : ((1 + 1)^-1 *: col 0 (1%:M : 'M[R]_2))%R = mat 2 1 [:: [:: 1 / 2]; [:: 0]].
    by apply/matrixP=> i j; rewrite ord1 !mxE; elim/ord2: i => /=; toR; field.
  rewrite /ls_upd inno2 gain2 d1 gE; apply/matrixP=> i j.
  rewrite !mxE big_ord1 !mxE big_ord1 !mxE; elim/ord2: i; elim/ord2: j => /=; toR; field.
pose PP : 'M[R]_2 := mat 2 2 [:: [:: 1 / 2; 0]; [:: 0; 1]]; rewrite -/PP in P1E.
rewrite /ls_mean /ls_pred P1E in uV *.
pose V := (last_A 1 *m (Re *m PP *m Re^T) *m (last_A 1)^T + last_Q 1)%R.
rewrite -/V in uV *.
have V00 : V 0%R 0%R = 1 - e * e / 2 by rewrite /V /PP /last_A /last_Q /Re; mxsimp; rewrite !eE; field.
have V10 : V 1%R 0%R = (1 - e) * (1 - e / 2) by rewrite /V /PP /last_A /last_Q /Re; mxsimp; rewrite !eE; field.
have V01 : V 0%R 1%R = (1 - e) * (1 - e / 2) by rewrite /V /PP /last_A /last_Q /Re; mxsimp; rewrite !eE; field.
pose u : 'M[R]_(1, 2) := (H *m PP *m (last_A 1 *m Re)^T *m invmx V)%R.
have uE : (u *m V)%R = (H *m PP *m (last_A 1 *m Re)^T)%R by rewrite /u mulmxKV.
have h0 := congr1 (fun M : 'M_(1, 2) => M 0%R 0%R) uE; have h1 := congr1 (fun M : 'M_(1, 2) => M 0%R 1%R) uE.
have hl : (u *m V)%R 0%R 0%R = u 0%R 0%R * V 0%R 0%R + u 0%R 1%R * V 1%R 0%R.
  by rewrite mxE !big_ord_recl big_ord0 addr0; congr (_ + u _ _ * V _ _)%R; apply: val_inj.
have hr : (u *m V)%R 0%R 1%R = u 0%R 0%R * V 0%R 1%R + u 0%R 1%R * V 1%R 1%R.
  by rewrite mxE !big_ord_recl big_ord0 addr0; congr (_ + u _ _ * V _ _)%R; apply: val_inj.
have r0 : (H *m PP *m (last_A 1 *m Re)^T)%R 0%R 0%R = e / 2 by rewrite /H /PP /last_A /Re; mxsimp; rewrite eE; field.
have r1 : (H *m PP *m (last_A 1 *m Re)^T)%R 0%R 1%R = (1 - e) / 2.
  by rewrite /H /PP /last_A /Re; mxsimp; rewrite eE; field.
rewrite hl r0 in h0; rewrite hr r1 in h1.
have e0 : 0 < e by exact: exp_pos.
have e1 : e < 1 by rewrite -exp_0; apply: exp_increasing; lra.
have -> : proj_mean H (PP *m (last_A 1 *m Re)^T *m invmx V *m (Re *m ls_gain (F:=[realFieldType of R]) H V))%R
    = u 0%R 0%R * (V 0%R 0%R / (V 0%R 0%R + 1)).
  rewrite /proj_mean !mulmxA -/u gain2.
  have -> : (u *m Re)%R = (u 0%R 0%R *: delta_mx 0 0)%R.
    by apply/matrixP=> a c; rewrite ord1 mxE !big_ord_recl big_ord0 !mxE; elim/ord2: c => /=; toR; ring.
  by move: (V) (u) => W u'; rewrite -scalemxAl -rowE !mxE /Rdiv; toR; rewrite [/ _ * _]Rmult_comm.
rewrite V01 -V10 in h1.
exact: (last_scalar e0 e1 V00 V10 h0 h1 hg).
Qed.
Lemma last_refuted : exists k b X diag y g r lp c,
  [/\ wf_integrated k, base_kernel k = Some b, plain_integrated k /\ noisy_integrated k, distinct_begins X &
      valid_exposures (instruments k) X diag y] /\
  gaussian_process smolgp_ops k X diag None NoSolver = inr g /\
  so_condition (smolgp_ops (sv_kind (g_solver g))) (g_solver g) y true = inr r /\
  (forall q, (q < (num_coords X).*2)%N -> nth 0%R (r_Pp r) q \in unitmx) /\
  gp_condition smolgp_ops g y None None = inr (lp, c) /\
  g_mean c <> [seq gp_mean (CT 0) (integrated_cov b) (coord_list X) (variances diag (num_coords X)) y x
                 | x <- coord_list X].
Proof.
have hs : default_integrated_solver NoSolver by left.
have nok : names_ok k_last by left; split; [case|].
have sk := plain_steps (X:=X_zero) k_last_wf I.
have [g hg] := int_defined k_last_wf None hs y_last_valid nok.
have [lp [c hc]] := int_condition_defined k_last_wf y_last_valid hs hg nok ltac:(by []).
have [r hr] := int_call_defined k_last_wf y_last_valid hs hg.
have [a0 q0] := kernel_at0 k_last_wf.
have {}q0 := q0 (plain_kept 0 k_last_wf I).
have wd := kernel_wide k_last_wf I.
have pQ := wc_Q (kernel_wincov k_last_wf (erefl _)) Rle_0_1 (plain_kept 1 k_last_wf I).
have fl v : ((mReset (denote k_last) 0)^T *m ((mA (denote k_last) (CT 0) (CT 1))^T *m v) = 0)%R ->
    qf (mQ (denote k_last) (CT 0) (CT 1)) v = 0%R -> v = 0%R.
  by apply: (wd_Q wd) => //; try lra; exact: plain_kept.
pose A a b := mA (denote k_last) (CT a) (CT b).
pose Q a b := mQ (denote k_last) (CT a) (CT b).
have hms := @last_start_ms [realFieldType of R] 2 A Q (mH (denote k_last) (CX 0 0 0)) (mReset (denote k_last))
  (mPinf (denote k_last)) a0 q0 (wd_P wd) (wd_A wd) pQ fl.
have hV := @ls_V [realFieldType of R] 2 A Q (mH (denote k_last) (CX 0 0 0)) (mReset (denote k_last))
  (mPinf (denote k_last)) a0 q0 (wd_P wd) (wd_A wd) pQ fl.
have hU := @ls_pd [realFieldType of R] 2 A Q (mH (denote k_last) (CX 0 0 0)) (mReset (denote k_last))
  (mPinf (denote k_last)) q0 (wd_P wd) (wd_A wd) pQ fl.
exists k_last, (Exp 1 1 "e"), X_zero, diag_last, y_last, g, r, lp, c.
split; first by split; [exact: k_last_wf|by []|by []|exact: X_zero_distinct|exact: y_last_valid].
split=> //; split=> //; split.
  by move=> q hq; rewrite (IntNarrow.si_call k_last_wf y_last_valid hs hg hr hq); exact: (pd_unit (hU q hq)).
split=> // hm.
have [_ _ [k'' [_ ec]]] := thm_int_condition_shape k_last_wf (erefl _) y_last_valid sk hs hg hc.
have [_ [em _]] := gp_fields ec.
have e0 : @en [realFieldType of R] [:: 0; 1] [:: 0; 0] 0 = 0%N by rewrite /en zero_sort.
move: hm; rewrite em => /(congr1 (fun s => nth 0 s 0%N)).
rewrite nth_mkseq // e0 (nth_map (CT 0)) // -[nth (CT 0) _ 0]/(CX 0 0 0).
set ms := nth 0%R (r_ms _) 0.
have -> : ms = _ := hms.
have [eA eQ eP eH eR] := last_model.
rewrite -[variances _ _]/[:: 1; 1].
rewrite -[A 0 1]/(mA (denote k_last) (CT 0) (CT 1)) -[Q 0 1]/(mQ (denote k_last) (CT 0) (CT 1)) in hV *.
rewrite eA eQ eP eH eR in hV *.
exact: (last_value hV last_gp_mean).
Qed.
