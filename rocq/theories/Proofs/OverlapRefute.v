(** A point inside an exposure of the same instrument: the likelihood is wrong. *)
From Coq Require Import Reals String Lra.
From mathcomp Require Import all_ssreflect all_algebra.
From Coquelicot Require Import Coquelicot.
From Verif.Prelude Require Import Rstruct Psd.
From Verif.Spec Require Import Expm Gp WfKernel Cov CovOf LogNormal Data IntCov WfIntegrated Exposures Smoothable FirstOpen.
From Verif.Model Require Import Array Jax Helpers Ssm Sequential Parallel BaseKernels IntegratedKernels Kernel Integrated
  Frontend SequentialOps Gp.
From Verif.Proofs Require Import ParIntFront GpExt VanLoan IntLeaf Joint Leaves Names Rename Fit FitAny FitRefute LagInt KernelProps FitExample
  IntegratedThms IntBook WindowCov WindowKernel IntWide IntPd FitInt IntThms IntExample FitIntCond IntCondThms IntNarrowThms
  ParIntRefute IntLast IntLastRefute.
Set Implicit Arguments.
Unset Strict Implicit.
Unset Printing Implicit Defensive.
Import GRing.Theory.

Section Arrays.
Local Open Scope ring_scope.
Variable F : realFieldType.
Let tm : seq F := [:: 1; 1]. Let dl : seq F := [:: 2%:R; 0].
Lemma ov_tu : @t_unsorted F tm dl = [:: 0; 2%:R; 1; 1].
Proof.
have h2 : (2%:R : F) / 2%:R = 1 by rewrite divff // Num.Theory.pnatr_eq0.
by rewrite /t_unsorted /= h2 mul0r subrr subr0 addr0.
Qed.
Lemma ov_sort : @sortidx F tm dl = [:: 0; 3; 2; 1]%N.
Proof.
have le i j : (i < 4)%N -> (j < 4)%N -> @state_le F tm dl i j
    = (nth 0%N [:: 0; 3; 2; 1]%N i <= nth 0%N [:: 0; 3; 2; 1]%N j)%N.
  have l01 : ((0 : F) < 1) = true by apply: Num.Theory.ltr01.
  have l10 : ((1 : F) < 0) = false by apply: Num.Theory.ltr10.
  have e01 : ((0 : F) == 1) = false by rewrite eq_sym; apply: oner_eq0.
  have e10 : ((1 : F) == 0) = false by apply: oner_eq0.
  have l02 : ((0 : F) < 2%:R) = true by rewrite Num.Theory.ltr0n.
  have l20 : ((2%:R : F) < 0) = false by rewrite Num.Theory.ltrn0.
  have e02 : ((0 : F) == 2%:R) = false by rewrite eq_sym Num.Theory.pnatr_eq0.
  have e20 : ((2%:R : F) == 0) = false by rewrite Num.Theory.pnatr_eq0.
  have l12 : ((1 : F) < 2%:R) = true by rewrite Num.Theory.ltr1n.
  have l21 : ((2%:R : F) < 1) = false by rewrite Num.Theory.ltrn1.
  have e12 : ((1 : F) == 2%:R) = false by rewrite eq_sym Num.Theory.pnatr_eq1.
  have e21 : ((2%:R : F) == 1) = false by rewrite Num.Theory.pnatr_eq1.
  rewrite /state_le ov_tu.
  by case: i j => [|[|[|[|i]]]] // [|[|[|[|j]]]] // _ _ /=;
    rewrite ?(eqxx, Order.POrderTheory.ltxx, l01, l10, e01, e10, l02, l20, e02, e20, l12, l21, e12, e21).
rewrite /sortidx ov_tu; move: (@state_le F tm dl) le => f le; rewrite [size _]/=.
by rewrite /sort /= !le //= !le //= !le //= !le.
Qed.
Lemma ov_t : @t_states F tm dl = [:: 0; 1; 1; 2%:R].
Proof. by rewrite /t_states ov_sort ov_tu. Qed.
Lemma ov_obs : @obsid F tm dl = [:: 0; 1; 1; 0]%N.
Proof. by rewrite /obsid ov_sort. Qed.
Lemma ov_state : @stateid F tm dl = [:: 0; 1; 0; 1]%N.
Proof. by rewrite /stateid ov_sort. Qed.

Variables (d : nat) (A Q : F -> F -> 'M[F]_d) (H0 H1 : 'M[F]_(1, d)) (RESET : nat -> 'M[F]_d) (P0 : 'M[F]_d).
Hypothesis A0 : A 0 0 = 1%:M.
Hypothesis Q0 : Q 0 0 = 0.
Definition ov_Pp (A1 Q1 Re P : 'M[F]_d) := A1 *m (Re *m P *m Re^T) *m A1^T + Q1.
Definition ov_upd (H : 'M[F]_(1, d)) (P : 'M[F]_d) :=
  let S := H *m P *m H^T + 1%:M in let K := (solve S^T (P *m H^T)^T)^T in P - K *m S *m K^T.
Definition ov_P1 := ov_Pp (A 0 1) (Q 0 1) (RESET 0) P0.
Definition ov_P0 := ov_Pp (A 0 1) (Q 0 1) (RESET 0) (ov_upd H1 ov_P1).
Let o := integrated_kalman_filter A Q [:: H0; H1] RESET [:: 1; 1] [:: 0; 0]
  (@t_states F tm dl) (@obsid F tm dl) [:: 0; 0]%N (@stateid F tm dl) 0 P0.
Lemma ov_vS : ends_vS [:: 0; 0] (@stateid F tm dl) o
  = ([:: 0; 0], [:: H1 *m ov_P1 *m H1^T + 1%:M; H0 *m ov_P0 *m H0^T + 1%:M]).
Proof.
have z : (0%:M : 'M[F]_1) = 0 by apply/matrixP => i j; rewrite !mxE mul0rn.
have d1 : (2%:R - 1 : F) = 1 by rewrite -[2%:R]/(1 + 1) addrK.
rewrite /o ov_t ov_obs ov_state /integrated_kalman_filter /ends_vS /=.
by rewrite !subrr !subr0 d1 A0 Q0 !trmx1 !mulmx1 !mul1mx !addr0 !mulmx0 z !subrr !mulmx0 !addr0 !mulmx0 subrr.
Qed.
End Arrays.

Local Open Scope R_scope.
Definition X_ov : coords := CTriple [:: 1; 1] [:: 2; 0] [:: 0; 0]%N.

(** ** The covariance of the two data *)
Lemma inner_exp u : 0 <= u <= 2 -> RInt (fun v => exp (- Rabs (u - v))) 0 2 = 2 - exp (- u) - exp (u - 2).
Proof.
move=> hu; apply: is_RInt_unique.
have -> : 2 - exp (- u) - exp (u - 2) = plus (1 - exp (- u)) (1 - exp (u - 2)) by rewrite /plus /=; ring.
apply: (@is_RInt_Chasles _ _ 0 u 2).
- apply: (is_RInt_ext (fun v => exp (v - u))) => [x|].
    rewrite Rmin_left ?Rmax_right; try lra.
    by move=> hx; rewrite Rabs_pos_eq; [congr exp; ring|lra].
  have -> : 1 - exp (- u) = minus (exp (u - u)) (exp (0 - u)).
    by rewrite /minus /plus /opp /= Rminus_eq_0 exp_0 Rminus_0_l; ring.
  apply: (is_RInt_derive (fun v => exp (v - u))) => x _; first by auto_derive => //; rewrite /Rminus; ring.
  by apply: ex_derive_continuous; auto_derive.
- apply: (is_RInt_ext (fun v => exp (u - v))) => [x|].
    rewrite Rmin_left ?Rmax_right; try lra.
    by move=> hx; rewrite Rabs_left; [congr exp; ring|lra].
  have -> : 1 - exp (u - 2) = minus (- exp (u - 2)) (- exp (u - u)).
    by rewrite /minus /plus /opp /= Rminus_eq_0 exp_0; ring.
  apply: (is_RInt_derive (fun v => - exp (u - v))) => x _; first by auto_derive => //; rewrite /Rminus; ring.
  by apply: ex_derive_continuous; auto_derive.
Qed.
Lemma outer_exp : RInt (fun u => (2 - exp (- u) - exp (u - 2)) / 2) 0 2 = 1 + exp (- (1)) * exp (- (1)).
Proof.
apply: is_RInt_unique.
have e2 : exp (- (2)) = exp (- (1)) * exp (- (1)) by rewrite -exp_plus; congr exp; ring.
pose G u := (2 * u + exp (- u) - exp (u - 2)) / 2.
have -> : 1 + exp (- (1)) * exp (- (1)) = minus (G 2) (G 0).
  rewrite /minus /plus /opp /= /G Rminus_eq_0 Ropp_0 exp_0 Rminus_0_l e2; field.
apply: (is_RInt_derive G) => x _; rewrite /G; first by auto_derive => //; rewrite /Rminus; field.
by apply: ex_derive_continuous; auto_derive.
Qed.

Lemma ov_kap i j : (i < 2)%N -> (j < 2)%N -> let e := exp (- (1)) in
  integrated_cov (Exp 1 1 "e") (nth (CT 0) (coord_list X_ov) i) (nth (CT 0) (coord_list X_ov) j)
  = if i == 0%N then (if j == 0%N then (1 + e * e) / 2 else 1 - e) else (if j == 0%N then 1 - e else 1).
Proof.
have cE x : cov_exp 1 1 (Rabs x) = exp (- Rabs x).
  by rewrite /cov_exp; have -> : - Rabs x / 1 = - Rabs x by [field|]; toR; lra.
have m0 f : exposure_mean (CX 1 2 0) f = RInt f 0 2 / 2.
  rewrite /exposure_mean; case: Rlt_dec => /= h; last by case: h; lra.
  by congr (RInt _ _ _ / _); rewrite /begin /finish /=; field.
have m1 f : exposure_mean (CX 1 0 0) f = f 1.
  by rewrite /exposure_mean; case: Rlt_dec => //= h; exfalso; lra.
have in1 u : 0 <= u <= 2 -> RInt (fun v => covariance (Exp 1 1 "e") (Rabs (u - v))) 0 2 / 2
    = (2 - exp (- u) - exp (u - 2)) / 2.
  by move=> hu; rewrite -inner_exp //; congr (_ / _); apply: RInt_ext => x _; exact: cE.
have e1 : exp (1 - 2) = exp (- (1)) by congr exp; ring.
move=> hi hj e; rewrite /integrated_cov /mean_cov.
case: i j hi hj => [|[|i]] // [|[|j]] // _ _ /=; rewrite -?[CX 1 _ _]/(CX 1 2 0).
- rewrite m0 -/e -outer_exp; congr (_ / _); apply: RInt_ext => u.
  by rewrite Rmin_left ?Rmax_right; try lra; move=> hu; rewrite m0 in1 //; lra.
- rewrite m0 (RInt_ext _ (fun u => covariance (Exp 1 1 "e") (Rabs (1 - u)))) => [|u _].
    by rewrite in1 ?e1 -/e; [field|lra].
  by rewrite m1 Rabs_minus_sym.
- by rewrite m1 m0 in1 ?e1 -/e; [field|lra].
- by rewrite !m1 Rminus_eq_0 cE Rabs_R0 Ropp_0 exp_0.
Qed.

Lemma ov_true : let e := exp (- (1)) in
  log_normal (CT 0) (integrated_cov (Exp 1 1 "e")) (coord_list X_ov) [:: 1; 1] [:: 0; 0]
  = - (1 / 2) * (0 + ln (2 + 2 * e) + 2 * ln (2 * PI)).
Proof.
move=> e; rewrite /log_normal gp_detE gp_quadE.
have -> : size (coord_list X_ov) = 2%N by [].
rewrite det2 !ov_kap //= -/e.
set K := (fun i j => _).
have -> : gpq 2 K [:: 1; 1] [:: 0; 0] = 0.
  have c0 : col_of 2 [:: 0; 0] = 0%R :> 'cV[R]_2.
    by apply/matrixP=> i j; rewrite !mxE; elim/ord2: i.
  by rewrite /gpq /post_mean c0 mulmx0 mxE.
rewrite /=; congr (_ * (_ + ln _ + _)); toR; field.
Qed.

(** ** The filter *)
Definition ov_Re : 'M[R]_2 := mat 2 2 [:: [:: 1; 0]; [:: 0; 0]].
Definition ov_H0 : 'M[R]_(1, 2) := mat 1 2 [:: [:: 0; 1 / 2]].
Definition ov_H1 : 'M[R]_(1, 2) := mat 1 2 [:: [:: 1; 0]].
Lemma ov_reset (P : 'M[R]_2) : (ov_Re *m P *m ov_Re^T)%R = mat 2 2 [:: [:: P 0%R 0%R; 0]; [:: 0; 0]].
Proof. rewrite /ov_Re; mxeq; toR; try ring.
by transitivity (P ord0 ord0); [ring|congr (P _ _); apply: val_inj]. Qed.
Lemma ov_pred p : (last_A 1 *m mat 2 2 [:: [:: p; 0]; [:: 0; 0]] *m (last_A 1)^T + last_Q 1)%R
  = let e := exp (- (1)) in mat 2 2 [:: [:: e * e * p + 1 - e * e; (1 - e) * (1 - e + e * p)];
      [:: (1 - e) * (1 - e + e * p); (1 - e) * (1 - e) * p + (2 * e - (1 - e) * (1 - e))]].
Proof. by rewrite /last_A /last_Q; mxeq; toR; ring. Qed.

Lemma ov_upd00 (P : 'M[R]_2) : P 0%R 0%R = 1 -> (@ov_upd [realFieldType of R] 2 ov_H1 P) 0%R 0%R = 1 / 2.
Proof.
move=> h1; rewrite -[ov_upd _ _]/(@ls_upd [realFieldType of R] 2 ov_H1 P) /ls_upd inno2 gain2 h1.
by rewrite !mxE big_ord1 !mxE big_ord1 !mxE h1 /=; toR; field.
Qed.
Lemma ov_S : let P1 := @ov_Pp [realFieldType of R] 2 (last_A 1) (last_Q 1) ov_Re 1%:M%R in
  let P0 := @ov_Pp [realFieldType of R] 2 (last_A 1) (last_Q 1) ov_Re (@ov_upd [realFieldType of R] 2 ov_H1 P1) in
  let e := exp (- (1)) in let s1 := 2 in let s0 := (2 * e - (1 - e) * (1 - e) / 2) / 4 + 1 in
  (ov_H1 *m P1 *m ov_H1^T + 1%:M)%R = s1%:M%R :> 'M[R]_1 /\
  (ov_H0 *m P0 *m ov_H0^T + 1%:M)%R = s0%:M%R :> 'M[R]_1.
Proof.
move=> P1 P0 e s1 s0.
have P1E : P1 = mat 2 2 [:: [:: 1; 1 - e]; [:: 1 - e; 2 * e]].
  by rewrite /P1 /ov_Pp ov_reset ov_pred -/e; mxeq; toR; ring.
have h1 : P1 0%R 0%R = 1 by rewrite P1E mxE.
have u00 := ov_upd00 h1.
split; first by rewrite inno2 h1; congr (_%:M)%R; rewrite /s1; toR; lra.
rewrite /P0 /ov_Pp ov_reset u00 ov_pred -/e.
by apply/matrixP=> i j; rewrite !ord1 /ov_H0 /s0; mxsimp; toR; field.
Qed.

Lemma ov_lp (b a : R) : 0 < b -> 0 < a -> compute_log_prob [:: 0; 0]%R [:: b%:M; a%:M]%R
  = Fin (- (1 / 2) * (0 + ln (b * a) + 2 * ln (2 * PI))).
Proof.
move=> b0 a0; rewrite compute_log_probE //; last by case=> [|[|i]] //= _; rewrite !mxE; toR; lra.
congr (Fin (_ * (_ + ln _ + _))); rewrite !big_ord_recl big_ord0 /= !mxE /=; toR.
- by rewrite /GRing.exp /=; toR; field; lra.
- ring.
Qed.

Lemma overlap_refuted : exists k b X diag y g,
  [/\ wf_integrated k, base_kernel k = Some b, plain_integrated k, size y = num_coords X &
      size (variances diag (num_coords X)) = num_coords X] /\
  (forall i, (i < num_coords X)%N -> 0 <= len (exposure X i) /\ (inst_of (exposure X i) < instruments k)%N /\
     0 < nth 0 (variances diag (num_coords X)) i) /\
  gaussian_process smolgp_ops k X diag None NoSolver = inr g /\
  exists l, gp_log_probability smolgp_ops g y = inr (Fin l) /\
    l <> log_normal (CT 0) (integrated_cov b) (coord_list X) (variances diag (num_coords X)) y.
Proof.
have nok : names_ok k_last by left; split.
have hs : default_integrated_solver NoSolver by left.
have [k' [ek _]] := unique_names_ok nok.
pose dg := Some (Vector [:: 1; 1]).
have gpE := @integrated_processE k_last X_ov dg None NoSolver hs erefl (wf_integrated_is k_last_wf) erefl.
rewrite ek /= in gpE.
eexists k_last, (Exp 1 1 "e"), X_ov, dg, [:: 0; 0], _.
split; first by split; [exact: k_last_wf|by []|by []|by []|by []].
split; first by case=> [|[|i]] //= _; (do 2?split=> //); toR; lra.
split; first exact: gpE.
have [a0 q0] := kernel_at0 k_last_wf.
have {}q0 := q0 (FitInt.plain_kept 0 k_last_wf I).
have [eA eQ eP eH eR] := last_model.
have T : Rltb 0 2 by apply/RltbP; lra.
have eH0 : mH (denote k_last) (CX 1 2 0) = ov_H0 by rewrite /= T; mxeq; rewrite /slot /=; toR; field.
have eH1 : mH (denote k_last) (CX 1 0 0) = ov_H1 := eH.
have := @ov_vS [realFieldType of R] 2 (fun a b => mA (denote k_last) (CT a) (CT b))
  (fun a b => mQ (denote k_last) (CT a) (CT b)) (mH (denote k_last) (CX 1 2 0)) (mH (denote k_last) (CX 1 0 0))
  (mReset (denote k_last)) (mPinf (denote k_last)) a0 q0.
set L := ends_vS _ _ _.
have eA' : mA (denote k_last) (CT 0%R) (CT 1%R) = last_A 1 := eA.
have eQ' : mQ (denote k_last) (CT 0%R) (CT 1%R) = last_Q 1 := eQ.
have [s1 s0] := ov_S.
rewrite /ov_P0 /ov_P1 eH0 eH1 eA' eQ' eR eP s1 s0 => e.
have e0 := exp_pos (- (1)); set x := exp (- (1)) in e e0.
have x1 : x < 1 by have := exp_increasing (- (1)) 0 ltac:(lra); rewrite exp_0.
exists (- (1 / 2) * (0 + ln (2 * ((2 * x - (1 - x) * (1 - x) / 2) / 4 + 1)) + 2 * ln (2 * PI))); split.
  transitivity (inr (compute_log_prob L.1 L.2) : err + xreal); first by [].
  by rewrite e ov_lp //; [lra|nra].
rewrite -[variances _ _]/[:: 1; 1] ov_true -/x => h.
have : ln (2 * ((2 * x - (1 - x) * (1 - x) / 2) / 4 + 1)) = ln (2 + 2 * x).
  by move: (ln _) (ln (2 + 2 * x)) (ln (2 * PI)) h => *; lra.
by apply: ln_neq; nra.
Qed.
