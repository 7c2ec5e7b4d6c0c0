(** When the smoother of the integrated models meets a singular predicted covariance. *)
From Coq Require Import Reals Lra.
From mathcomp Require Import all_ssreflect all_algebra.
From Coquelicot Require Import Coquelicot.
From Verif.Prelude Require Import Rstruct Zmod Psd MxCalc.
From Verif.Spec Require Import Expm Integral Lti WfKernel CovOf LogNormal Data WfIntegrated IntCov Exposures Smoothable.
From Verif.Model Require Import Array Helpers BaseKernels IntegratedKernels Kernel Jax Ssm Sequential
  Integrated Frontend SequentialOps Gp.
From Verif.Proofs Require Import Expm MxInt VanLoan Lti Leaves KernelLti KernelThms IntegratedThms Joint LagInt IntLeaf
  IntBook IntExact WindowCov WindowKernel IntGram FitInt IntThms IntWide Evaluate Names Rename Fit FitAny FitThms.
Set Implicit Arguments.
Unset Strict Implicit.
Unset Printing Implicit Defensive.
Import Order.TTheory GRing.Theory Num.Theory.
Local Open Scope ring_scope.

Lemma no_noise n p (F : 'M[R]_n) (L : 'M[R]_(n, p)) (Qc : 'M[R]_p) t : L *m Qc *m L^T = 0 ->
  Q_from_VanLoan F L Qc t = 0.
Proof.
move=> W0; have h s : mxd (fun=> 0) s (F *m 0 + 0 *m F^T + L *m Qc *m L^T).
  by apply: mxd_eq (mxd_const _ _) _; rewrite W0 mulmx0 mul0mx !addr0.
by have := lyap_flow h t; rewrite mulmx0 mul0mx add0r => <-.
Qed.

(** Something removed by a reset gets no variance from the noise over the time dt. *)
Definition narrow (m : model) (n : nat) (dt : R) : Prop := forall s, (s < n)%N ->
  exists v : 'cV[R]_(md m), [/\ v != 0, (mReset m s)^T *m ((mA m (CT R0) (CT dt))^T *m v) = 0 &
                mQ m (CT R0) (CT dt) *m v = 0].

Lemma narrow_leaf k b n dt : integrated_of k = Some (b, n) -> wf_kernel b -> sharp_kernel b ->
  Rle 0 dt -> noise_kept dt b /\ integral_noise_kept dt k -> dt = R0 \/ ~ noisy_integrated k ->
  narrow (denote k) n dt.
Proof.
move=> ik wf sk t0 [k1 k2] h s sn; have dl := kernel_declared wf sk.
have hlag : lag (CT R0) (CT dt) = dt by rewrite /lag /= Rminus_0_r.
have tr : transition_raises false k = None by case: (k) ik.
have hA : mA (denote k) (CT R0) (CT dt) = expm (dt *: mF (denote k)).
  have ht : kernel_transition false k (CT R0) (CT dt) = inr (mA (denote k) (CT R0) (CT dt)).
    by rewrite /kernel_transition tr.
  by have [-> _] := @int_transition false k b n (CT R0) (CT dt) (CT R0) _ ik wf sk ht; rewrite hlag.
have hQ : mQ (denote k) (CT R0) (CT dt) = Q_from_VanLoan (mF (denote k)) (mL (denote k)) (mQc (denote k)) dt.
  have := @int_noise k b n (CT R0) (CT dt) (CT R0) ik wf sk.
  by rewrite hlag => /(_ t0 k1 k2) [-> _].
have Q0 : mQ (denote k) (CT R0) (CT dt) = 0.
  rewrite hQ; case: h => [->|h]; first exact: Q_0.
  apply: no_noise; case: k ik h {k1 k2 tr hA hQ} => //= l sg m nm _ _.
  by have -> : mat 1 1 [:: [:: R0]] = 0 :> 'M[R]_1; [apply/matrixP=> i j; rewrite (ord1 i) (ord1 j) !mxE|rewrite mulmx0 mul0mx].
have [r [rn hr]] : exists r : 'cV_(md (denote k)), r != 0 /\ (mReset (denote k) s)^T *m r = 0.
  case: k ik {h k1 k2 tr hA hQ Q0} => // [w q sg m nm|l sg m nm|l sg m nm|l sg m nm|l sg m nm] [eb en];
    rewrite en; exists (delta_mx (rshift _ (Ordinal sn)) 0); (split;
    [by apply/eqP => /matrixP/(_ (rshift _ (Ordinal sn)) 0)/eqP; rewrite !mxE !eqxx /= oner_eq0
    |rewrite /= tr_diag_mx d_ge_slot //; apply/matrixP=> i j; rewrite mul_diag_mx !mxE;
     case: (eqVneq i _) => [->|_]; rewrite /= ?eqxx ?mul0r ?mulr0 //]).
have uA : (mA (denote k) (CT R0) (CT dt))^T \in unitmx.
  by rewrite unitmx_tr hA; have := E_cancel (mF (denote k)) dt => /mulmx1_unit[].
exists (invmx (mA (denote k) (CT R0) (CT dt))^T *m r); split.
- apply/eqP=> e; case/eqP: rn; by rewrite -(mulKVmx uA r) e mulmx0.
- by rewrite mulKVmx.
- by rewrite Q0 mul0mx.
Qed.

Lemma noisy_dec k : noisy_integrated k \/ ~ noisy_integrated k.
Proof.
elim: k; try (by move=> *; left); try by (move=> *; right).
by move=> k1 [h1|h1] k2 [h2|h2]; [left|right=> -[]|right=> -[]|right=> -[]].
Qed.

Lemma kernel_narrow k dt : wf_integrated k -> Rle 0 dt -> all_noise_kept dt k ->
  dt = R0 \/ ~ noisy_integrated k -> narrow (denote k) (instruments k) dt.
Proof.
elim: k => // [k1 IH1 k2 IH2|w q s n nm|l s n nm|l s n nm|l s n nm|l s n nm];
  try by move=> [wf sk] t0 kk h; apply: narrow_leaf.
move=> [w1 w2] t0 [kk1 kk2] h s /= sn.
have s1 : (s < instruments k1)%N by apply: leq_trans sn _; exact: geq_minl.
have s2 : (s < instruments k2)%N by apply: leq_trans sn _; exact: geq_minr.
have [h1|h2] : (dt = R0 \/ ~ noisy_integrated k1) \/ (dt = R0 \/ ~ noisy_integrated k2).
  case: h => [->|h]; first by left; left.
  have [n1|n1] := noisy_dec k1; last by left; right.
  by right; right=> n2; apply: h.
- have [v [v0 e1 e2]] := IH1 w1 t0 kk1 h1 s s1.
  exists (col_mx v 0); split.
  + by apply/eqP=> /(congr1 usubmx); rewrite col_mxKu linear0 => /eqP; apply/negP.
  + by rewrite !tr_block_mx !mul_block_col !trmx0 !mulmx0 !mul0mx !addr0 e1 mulmx0 addr0 col_mx0.
  + by rewrite mul_block_col !mulmx0 !mul0mx !addr0 e2 col_mx0.
- have [v [v0 e1 e2]] := IH2 w2 t0 kk2 h2 s s2.
  exists (col_mx 0 v); split.
  + by apply/eqP=> /(congr1 dsubmx); rewrite col_mxKd linear0 => /eqP; apply/negP.
  + by rewrite !tr_block_mx !mul_block_col !trmx0 !mulmx0 !mul0mx !add0r mulmx0 add0r e1 col_mx0.
  + by rewrite mul_block_col !mulmx0 !mul0mx !add0r e2 col_mx0.
Qed.

(** A predicted covariance without variance in some direction. *)
Section Predicted.
Variables (F : realFieldType) (d : nat).
Variables (A Q : F -> F -> 'M[F]_d) (Hs : seq 'M[F]_(1, d)) (RESET : nat -> 'M[F]_d).
Variables (R y tm dl : seq F) (inst : seq nat) (P0 : 'M[F]_d).
Let K := (size tm).*2.
Let t := t_states tm dl.
Let obs := obsid tm dl.
Let st := stateid tm dl.
Let Dt k : F := t`_k.+1 - t`_k.
Let out := integrated_kalman_filter A Q Hs RESET R y t obs inst st 0 P0.
Let o i := nth (0, 0, 0, 0, 0, 0) out i.

Lemma pred_singular q (v : 'cV[F]_d) : (q.+1 < K)%N -> nth 0%N st q = 0%N -> v != 0 ->
  (RESET (nth 0%N inst (nth 0%N obs q)))^T *m ((A 0 (Dt q))^T *m v) = 0 -> Q 0 (Dt q) *m v = 0 ->
  o_Pp (o q.+1) \notin unitmx.
Proof.
move=> hq es v0 e1 e2.
have := @ie_PpS F d A Q Hs RESET R y tm dl inst P0 q hq.
rewrite -/t -/obs -/st -/out -/(o q) -/(o q.+1) /ie_Ap /ie_Q -/K hq -/(Dt q) /reset_at -/t -/obs -/st es eqxx => eP.
apply/negP=> u; case/eqP: v0.
by rewrite -(mulKmx u v) eP mulmxDl e2 addr0 trmx_mul -!mulmxA e1 !mulmx0.
Qed.
Lemma pred_nth q : (q < K)%N -> nth 0 (map (@o_Pp F d) out) q = o_Pp (o q).
Proof. by move=> hq; rewrite (nth_map (0, 0, 0, 0, 0, 0)) // (@ie_size_out F d A Q Hs RESET R y tm dl inst P0). Qed.
End Predicted.

Section Singular.
Variables (k b : kernel) (tm dl : seq R) (inst : seq nat) (diag : option farray) (y : seq R).
Let X := CTriple tm dl inst.
Let N := size tm.
Let K := N.*2.
Let nd := variances diag N.
Let m := denote k.
Hypothesis wf : wf_integrated k.
Hypothesis eb : base_kernel k = Some b.
Hypothesis ve : valid_exposures (instruments k) X diag y.
Hypothesis sk : exposure_steps_kept k X.
Let s := Solver IntegratedStateSpaceSolver k X nd.
Let t := @t_states [realFieldType of R] tm dl.
Let obs := @obsid [realFieldType of R] tm dl.
Let st := @stateid [realFieldType of R] tm dl.
Let A := fun u v => mA m (CT u) (CT v).
Let Q := fun u v => mQ m (CT u) (CT v).
Let Hs := map (mH m) (coord_list X).
Let out := integrated_kalman_filter A Q Hs (mReset m) nd y t obs inst st 0 (mPinf m).
Let o i := nth (0, 0, 0, 0, 0, 0) out i.
Local Notation stn := (@IntBook.st [realFieldType of R] tm dl).

Lemma si_pred q : (q.+1 < K)%N -> nth 0%N st q = 0%N -> nth 0 t q.+1 = nth 0 t q \/ ~ noisy_integrated k ->
  o_Pp (o q.+1) \notin unitmx.
Proof.
move=> hq es h.
have ho : (nth 0%N obs q < N)%N by apply: obs_lt; apply: ltnW.
have [v [v0 e1 e2]] : exists v : 'cV_(md m), [/\ v != 0,
    (mReset m (nth 0%N inst (nth 0%N obs q)))^T *m ((A 0 (nth 0 t q.+1 - nth 0 t q))^T *m v) = 0 &
    Q 0 (nth 0 t q.+1 - nth 0 t q) *m v = 0].
  apply: (kernel_narrow wf) (fi_insts ve ho).
  - exact: (@Dt_ge0 tm dl q hq).
  - exact: (fi_step sk hq).
  - by case: h => [->|h]; [left; exact: Rminus_diag_eq|right].
exact: (@pred_singular [realFieldType of R] (md m) A Q Hs (mReset m) nd y tm dl inst (mPinf m) q v hq es v0 e1 e2).
Qed.

Lemma si_tied i j : (i < N)%N -> (j < N)%N -> i <> j -> begin (exposure X i) = begin (exposure X j) ->
  exists q, (q.+1 < K)%N /\ o_Pp (o q.+1) \notin unitmx.
Proof.
wlog lt : i j / (stn i < stn j)%N => [hw hi hj ij e|].
  case: (ltngtP (stn i) (stn j)) => h; first exact: hw h hi hj ij e.
    by apply: hw h hj hi _ _ => //; apply: nesym.
  have [h1 _ _] := st_spec dl hi; have [h2 _ _] := st_spec dl hj.
  by case: ij; rewrite -h1 h h2.
move=> hi hj ij; rewrite !(fi_exposure dl inst) // -(st_begin _ inst) // -(st_begin _ inst) // -/t => e.
have lj := IntBook.st_lt dl hj.
have [q eq] : exists q, stn j = q.+1 by case: (stn j) lt => // q _; exists q.
have iq : (stn i <= q)%N by move: lt; rewrite eq ltnS.
have hq : (q.+1 < K)%N by rewrite -eq.
have e1 : nth 0 t q.+1 = nth 0 t q.
  rewrite -eq; apply: Rle_antisym; first by rewrite -e; apply: (@t_le tm dl) => //; apply: ltnW.
  by rewrite eq; apply: (@t_le tm dl).
exists q; split=> //; apply: si_pred => //; last by left.
have [_ h0 _] := st_spec dl hi.
by apply: (@ends_first _ tm dl (stn i) q iq (ltnW hq)) => //; rewrite -/t e eq e1.
Qed.

Lemma si_quiet : ~ noisy_integrated k -> N <> 1%N ->
  exists q, (q.+1 < K)%N /\ o_Pp (o q.+1) \notin unitmx.
Proof.
move=> nn n1; have N0 := fi_N0 ve.
have N1 : (1 < N)%N by rewrite ltn_neqAle N0 andbT; apply/eqP; apply: nesym.
have [i hi hl] : exists2 i, (i < N)%N & stn i != K.-1.
  case: (eqVneq (stn 0) K.-1) => e; last by exists 0%N.
  exists 1%N => //; rewrite -e; apply/eqP=> /(congr1 (fun q => nth 0%N obs q)).
  by have [-> _ _] := st_spec dl N0; have [-> _ _] := st_spec dl N1.
have lt := IntBook.st_lt dl hi.
exists (stn i); split.
  by move: hl lt; rewrite -/K; case: (K) => // K' /= hl; rewrite ltnS [in X in X -> _]leq_eqVlt (negbTE hl).
apply: si_pred; last by right.
  by move: hl lt; rewrite -/K; case: (K) => // K' /= hl; rewrite ltnS [in X in X -> _]leq_eqVlt (negbTE hl).
by have [_ -> _] := st_spec dl hi.
Qed.

Variables (mean : option (coord -> R)) (sa : solver_arg) (g : gp).
Hypothesis hsa : default_integrated_solver sa.
Hypothesis hg : gaussian_process smolgp_ops k X diag mean sa = inr g.

(** The predicted covariances of the call are those of the filter above. *)
Lemma si_call r : so_condition (smolgp_ops (sv_kind (g_solver g))) (g_solver g) y true = inr r ->
  forall q, (q < K)%N -> (nth 0 (r_Pp r) q \in unitmx) = (o_Pp (o q) \in unitmx).
Proof.
have [k' [e eg]] := fi_gp wf ve hsa hg; move: r; rewrite eg => r.
rewrite /= /int_solver_condition /traced_transition wf_integrated_raises // => -[<-] q hq.
exact: (congr1 (fun M => M \in unitmx) (@pred_nth [realFieldType of R] (md m) A Q Hs (mReset m) nd y tm dl inst (mPinf m) q hq)).
Qed.
End Singular.
