(** The sequential solver computes exact Gaussian conditioning. *)
From mathcomp Require Import all_ssreflect all_algebra.
From Verif.Prelude Require Import Zmod Psd.
From Verif.Model Require Import Jax Ssm Sequential.
From Verif.Spec Require Import Gp Markov.
From Verif.Proofs Require Import Gauss Chain KalmanPd ScanLemmas StateCov.
Set Implicit Arguments.
Unset Strict Implicit.
Unset Printing Implicit Defensive.
Import Order.TTheory GRing.Theory Num.Theory.
Local Open Scope ring_scope.

Lemma solveTT (F : realFieldType) m n (a : 'M[F]_m) (b : 'M[F]_(n, m)) :
  a \in unitmx -> (solve a^T b^T)^T *m a = b.
Proof. by move=> ua; rewrite /solve trmx_mul trmxK -trmx_inv trmxK mulmxKV. Qed.

Lemma det_dim0 (F : realFieldType) n (M : 'M[F]_n) : n = 0%N -> \det M = 1.
Proof. by move=> e; move: M; rewrite e => M; rewrite det_mx00. Qed.

Lemma sorted_count (F : realFieldType) (t : seq F) s j :
  sorted <=%R t -> (j < size t)%N ->
  (j < searchsorted_right t s)%N = (t`_j <= s).
Proof.
rewrite /searchsorted_right; elim: t j => //= x t IH j hp hj.
case: (leP x s) => hx; last first.
  have hall : all (fun z => s < z) t.
    by apply/allP=> z /(allP (order_path_min le_trans hp)); apply: lt_le_trans.
  rewrite add0n (_ : count _ t = 0%N) ?ltn0; last first.
    by apply/eqP; rewrite -leqn0 leqNgt -has_count; apply/hasPn=> z /(allP hall);
       rewrite -ltNge.
  case: j hj => [|j] hj /=; first by rewrite leNgt hx.
  by rewrite leNgt (allP hall) // mem_nth.
rewrite add1n; case: j hj => [|j] hj /=; first by rewrite hx.
by rewrite ltnS IH // (path_sorted hp).
Qed.

Section SeqExact.
Variables (F : realFieldType) (k : ssm F).
Hypothesis vk : valid_ssm k.
Let d := sdim k.
Let Pinf : 'M[F]_d := spinf k.
Let A (dt : F) : 'M[F]_d := strans k 0 dt.
Let Q (dt : F) : 'M[F]_d := snoise k 0 dt.
Variables (t y R : seq F).
Hypothesis tsort : sorted <=%R t.
Hypothesis Rpos : forall i, (i < size t)%N -> 0 < R`_i.
Let N := size t.

Let step := kf_step (strans k) (snoise k) (sobs k) R t y.
Let c0 : 'cV[F]_d * 'M[F]_d := (0, Pinf).
Let cr i := carry_of step c0 (iota 0 i).
Let out := KalmanFilter k t y R.
Let o0 : kf_out F d := (0, 0, 0, 0, 0, 0).
Let o i := nth o0 out i.

Lemma size_out : size out = N.
Proof. by rewrite /out /KalmanFilter /kalman_filter lax_scan_size size_iota. Qed.

Lemma oE i : (i < N)%N -> o i = (step (cr i) i).2.
Proof.
move=> hi; rewrite /o /out /KalmanFilter /kalman_filter.
rewrite (lax_scan_nth _ _ 0%N) ?size_iota // nth_iota // add0n.
by rewrite take_iota0 // ltnW.
Qed.

Lemma crS i : (i < N)%N -> cr i.+1 = (o_m (o i), o_P (o i)).
Proof.
move=> hi; rewrite /cr carry_of_iotaS -/(cr i) oE //.
by case: (cr i) => m P.
Qed.

Definition Dt i : F := if (0 < i)%N then t`_i - t`_i.-1 else 0.

Lemma o_mpE i : (i < N)%N -> o_mp (o i) = A (Dt i) *m (cr i).1.
Proof. by move=> hi; rewrite oE //; case: (cr i) => m P. Qed.

Lemma o_PpE i : (i < N)%N ->
  o_Pp (o i) = A (Dt i) *m (cr i).2 *m (A (Dt i))^T + Q (Dt i).
Proof. by move=> hi; rewrite oE //; case: (cr i) => m P. Qed.

Definition Kgain i : 'M[F]_(d, 1) :=
  (solve (o_S (o i))^T (o_Pp (o i) *m (sobs k t`_i)^T)^T)^T.

Lemma o_updE i : (i < N)%N ->
  [/\ o_v (o i) = (y`_i)%:M - sobs k t`_i *m o_mp (o i),
      o_S (o i) = sobs k t`_i *m o_Pp (o i) *m (sobs k t`_i)^T + (R`_i)%:M,
      o_m (o i) = o_mp (o i) + Kgain i *m o_v (o i) &
      o_P (o i) = o_Pp (o i) - Kgain i *m o_S (o i) *m (Kgain i)^T].
Proof. by move=> hi; rewrite /Kgain oE //; case: (cr i) => m P. Qed.

Lemma o_0 : (0 < N)%N -> o_mp (o 0) = 0 /\ o_Pp (o 0) = Pinf.
Proof.
move=> h0; rewrite o_mpE // o_PpE // /Dt /= /cr /= mulmx0; split=> //.
by rewrite /A /Q (vs_id vk) (snoise0 vk) trmx1 mul1mx mulmx1 addr0.
Qed.

Lemma o_next i : (i.+1 < N)%N ->
  o_mp (o i.+1) = A (t`_i.+1 - t`_i) *m o_m (o i)
  /\ o_Pp (o i.+1) = A (t`_i.+1 - t`_i) *m o_P (o i) *m (A (t`_i.+1 - t`_i))^T
                     + Q (t`_i.+1 - t`_i).
Proof. by move=> hi; rewrite o_mpE // o_PpE // crS // ltnW. Qed.

Lemma step_ge0 i : (i.+1 < N)%N -> 0 <= t`_i.+1 - t`_i.
Proof. by move=> hi; rewrite subr_ge0; apply: t_le. Qed.

Lemma pd_both i : (i < N)%N -> pdmx (o_Pp (o i)) /\ pdmx (o_P (o i)).
Proof.
have upd j : (j < N)%N -> pdmx (o_Pp (o j)) -> pdmx (o_P (o j)).
  move=> hj hp; have [_ SE _ ->] := o_updE hj.
  apply: (update_pd SE) (Rpos hj) => //.
  by apply: solveTT; apply: (Sk_unit SE) (Rpos hj); apply: pd_psd.
elim: i => [|i IH] hi.
  by have [_ e] := o_0 hi; split; [|apply: upd]; rewrite ?e //; apply: vs_pinf.
have [_ hf] := IH (ltnW hi).
have hp : pdmx (o_Pp (o i.+1)).
  have [_ ->] := o_next hi; have s0 := step_ge0 hi.
  apply: pdD; last exact: (vs_qpsd vk).
  by apply: pd_conj => //; apply: (vs_unit vk).
by split=> //; apply: upd.
Qed.

Lemma S_pos i : (i < N)%N -> 0 < o_S (o i) 0 0.
Proof.
move=> hi; have [_ SE _ _] := o_updE hi; have [hp _] := pd_both hi.
exact: (Sk_gt0 SE (pd_psd hp) (Rpos hi)).
Qed.

Lemma S_unit i : (i < N)%N -> o_S (o i) \in unitmx.
Proof. by move=> hi; rewrite unit11 gt_eqF // S_pos. Qed.

Let yv : 'cV[F]_N := col_of N y.
Let Sg : 'M[F]_N := Sig k t R.
Let sSg : Sg^T = Sg := Sig_sym vk t R.
Let op (i : nat) : option 'I_N := insub i.

Lemma opN i : (i < N)%N -> op i = None -> False.
Proof. by rewrite /op => hi; case: insubP => // /negP. Qed.

Lemma opS i n : op i = Some n -> i = n.
Proof. by rewrite /op; case: insubP => // j _ e [<-]. Qed.

Lemma op_ord (n : 'I_N) : op n = Some n.
Proof. exact: valK. Qed.

Let Ek i : 'M[F]_N := pid_mx i.
Let Ck i : 'M[F]_(d, N) := Cst k t t`_i.
Let Apk i : 'M[F]_d := A (t`_i.+1 - t`_i).
Let Qk i : 'M[F]_d := Q (t`_i.+1 - t`_i).
Let hk i : 'M[F]_(1, d) := sobs k t`_i.
Let rk i : 'M[F]_1 := (R`_i)%:M.

Lemma EkS i : (i < N)%N -> Ek i.+1 =
  if op i is Some n then Ek i + (delta_mx 0 n)^T *m delta_mx (0 : 'I_1) n else Ek i.
Proof.
move=> hi; case e: (op i) => [n|]; last by case: (opN hi e).
by rewrite (opS e) /Ek pid_mxS.
Qed.

Lemma Ekn i n : (i < N)%N -> op i = Some n -> delta_mx (0 : 'I_1) n *m Ek i = 0.
Proof. by move=> _ /opS ->; apply: delta_pid. Qed.

Lemma Crec i : (i.+1 < N)%N -> Ck i.+1 *m Ek i.+1 = Apk i *m Ck i *m Ek i.+1.
Proof.
move=> hi; apply: (Cst_fwd vk) => [|j hj|]; first exact: ltnW.
  by apply: t_le => //; apply: ltnW.
by rewrite -subr_ge0 step_ge0.
Qed.

Lemma Srec i : (i.+1 < N)%N -> Pinf = Apk i *m Pinf *m (Apk i)^T + Qk i.
Proof. by move=> hi; rewrite (noise_stat vk) ?step_ge0. Qed.

Lemma obs_row i n : (i < N)%N -> op i = Some n ->
  delta_mx (0 : 'I_1) n *m Sg *m Ek i = hk i *m Ck i *m Ek i.
Proof. by move=> _ /opS ->; apply: Sig_row. Qed.

Lemma obs_diag i n : (i < N)%N -> op i = Some n ->
  delta_mx (0 : 'I_1) n *m Sg *m (delta_mx (0 : 'I_1) n)^T
  = hk i *m Pinf *m (hk i)^T + rk i.
Proof. by move=> _ /opS ->; apply: (Sig_diag vk). Qed.

Lemma obs_col i n : (i < N)%N -> op i = Some n ->
  Ck i *m (delta_mx (0 : 'I_1) n)^T = Pinf *m (hk i)^T.
Proof. by move=> _ /opS ->; apply: (Cst_col vk). Qed.

Lemma filt_upd i n : (i < N)%N -> op i = Some n ->
  [/\ o_v (o i) = (yv n 0)%:M - hk i *m o_mp (o i),
      o_S (o i) = hk i *m o_Pp (o i) *m (hk i)^T + rk i,
      Kgain i *m o_S (o i) = o_Pp (o i) *m (hk i)^T,
      o_m (o i) = o_mp (o i) + Kgain i *m o_v (o i) &
      o_P (o i) = o_Pp (o i) - Kgain i *m o_S (o i) *m (Kgain i)^T].
Proof.
move=> hi e; have [a b c f] := o_updE hi; split=> //.
  by rewrite a mxE -(opS e).
by apply: solveTT; apply: S_unit.
Qed.

Lemma mpS i : (i.+1 < N)%N -> o_mp (o i.+1) = Apk i *m o_m (o i).
Proof. by case/o_next. Qed.
Lemma PpS i : (i.+1 < N)%N ->
  o_Pp (o i.+1) = Apk i *m o_P (o i) *m (Apk i)^T + Qk i.
Proof. by case/o_next. Qed.
Lemma fN i : (i < N)%N -> op i = None ->
  o_m (o i) = o_mp (o i) /\ o_P (o i) = o_Pp (o i).
Proof. by move=> hi /(opN hi). Qed.
Lemma uS i (n : 'I_N) : (i < N)%N -> op i = Some n -> o_S (o i) \in unitmx.
Proof. by move=> hi _; apply: S_unit. Qed.

Lemma E0 : Ek 0 = 0. Proof. exact: pid_mx0'. Qed.
Lemma EN : Ek N = 1%:M. Proof. exact: pid_mx1'. Qed.

Lemma seq_pos_filter : (0 < N)%N -> forall i, (i < N)%N ->
  at_pred Sg yv (fun _ => Pinf) Ck Ek (fun i => o_mp (o i)) (fun i => o_Pp (o i)) i
  /\ at_filt Sg yv (fun _ => Pinf) Ck Ek (fun i => o_m (o i)) (fun i => o_P (o i)) i.
Proof.
move=> N0 i hi; have [m0 P0] := o_0 N0.
exact: (chain_filter sSg E0 EkS Ekn (fun _ _ => sPinf vk) Srec Crec obs_row obs_diag
  obs_col m0 P0 mpS PpS fN filt_upd uS hi).
Qed.

Definition sprod i : F := \prod_(j < i) o_S (o j) 0 0.
Definition ssum i : F := \sum_(j < i) (o_v (o j) 0 0) ^+ 2 / o_S (o j) 0 0.

Lemma detsE i : (i <= N)%N -> dets op (fun i => o_S (o i)) i = sprod i.
Proof.
elim: i => [_|i IH hi] /=; first by rewrite /sprod big_ord0.
case e: (op i) => [n|]; last by case: (opN hi e).
by rewrite IH ?(ltnW hi) // /sprod big_ord_recr mulrC.
Qed.

Lemma quadsE i : (i <= N)%N ->
  quads op (fun i => o_v (o i)) (fun i => o_S (o i)) i 0 0 = ssum i.
Proof.
elim: i => [_|i IH hi] /=; first by rewrite /ssum big_ord0 mxE.
case e: (op i) => [n|]; last by case: (opN hi e).
rewrite mxE IH ?(ltnW hi) // /ssum big_ord_recr; congr (_ + _) => /=.
by rewrite !mul11E mxE inv11 expr2 mulrAC.
Qed.

Lemma Sig_det : \det Sg = sprod N.
Proof.
case: (posnP N) => [e|N0].
  by rewrite det_dim0 // /sprod e big_ord0.
rewrite -detsE //; have [m0 P0] := o_0 N0.
exact: (chain_detSg sSg E0 EkS Ekn (fun _ _ => sPinf vk) Srec Crec obs_row obs_diag
  obs_col m0 P0 mpS PpS fN filt_upd uS EN).
Qed.

Lemma sprod_gt0 i : (i <= N)%N -> 0 < sprod i.
Proof. by move=> hi; apply: prodr_gt0 => j _; apply: S_pos; apply: leq_trans hi. Qed.

Lemma Sig_unit : Sg \in unitmx.
Proof. by rewrite unitmxE Sig_det unitfE gt_eqF // sprod_gt0. Qed.

Lemma Sig_quad : (yv^T *m invmx Sg *m yv) 0 0 = ssum N.
Proof.
case: (posnP N) => [e|N0].
  have -> : ssum N = 0 by rewrite /ssum e big_ord0.
  by rewrite mxE big1 // => -[j hj]; exfalso; move: hj; rewrite e.
rewrite -quadsE //; have [m0 P0] := o_0 N0.
by rewrite (chain_quadSg sSg E0 EkS Ekn (fun _ _ => sPinf vk) Srec Crec obs_row obs_diag
  obs_col m0 P0 mpS PpS fN filt_upd uS EN).
Qed.

(** Smoother. *)
Let sm := RTSSmoother t out.
Let s0 : 'cV[F]_d * 'M[F]_d := (0, 0).
Let sh i := nth s0 sm i.
Let rstep := rts_step (strans k) t (map (@o_m F d) out) (map (@o_P F d) out)
     (map (@o_mp F d) out) (map (@o_Pp F d) out).

Lemma rstep_ff c i : (rstep c i).2 = (rstep c i).1.
Proof. by case: c. Qed.

Lemma smE : sm = backward rstep (last 0 (map (@o_m F d) out), last 0 (map (@o_P F d) out))
                      N.-1.
Proof. by rewrite /sm /RTSSmoother /rts_smoother /backward /arange_down subn1. Qed.

Lemma size_sm : size sm = maxn 1 N.
Proof. by rewrite smE size_backward; case: (N) => // n; rewrite maxnE add1n subn1. Qed.

Lemma nth_out T (f : kf_out F d -> T) x i : (i < N)%N ->
  nth x (map f out) i = f (o i).
Proof. by move=> hi; rewrite (nth_map o0) ?size_out. Qed.

Lemma last_out T (f : kf_out F d -> T) x : (0 < N)%N -> last x (map f out) = f (o N.-1).
Proof.
move=> N0; rewrite -(nth_last x) size_map size_out nth_out //.
by rewrite prednK.
Qed.

Lemma sh_last : (0 < N)%N -> sh N.-1 = (o_m (o N.-1), o_P (o N.-1)).
Proof. by move=> N0; rewrite /sh smE backward_last !last_out. Qed.

Definition Ggain i : 'M[F]_d :=
  (solve (o_Pp (o i.+1))^T (o_P (o i) *m (Apk i)^T)^T)^T.

Lemma sh_next i : (i.+1 < N)%N ->
  (sh i).1 = o_m (o i) + Ggain i *m ((sh i.+1).1 - o_mp (o i.+1))
  /\ (sh i).2 = o_P (o i) + Ggain i *m ((sh i.+1).2 - o_Pp (o i.+1)) *m (Ggain i)^T.
Proof.
move=> hi; rewrite /sh smE backward_nth; last first.
    by case: (N) hi.
  exact: rstep_ff.
case: (nth _ _ i.+1) => mh Ph; rewrite /rstep /rts_step /= !nth_out ?(ltnW hi) //.
Qed.

Lemma G_eq i : (i.+1 < N)%N -> Ggain i *m o_Pp (o i.+1) = o_P (o i) *m (Apk i)^T.
Proof. by move=> hi; apply: solveTT; apply: pd_unit; case: (pd_both hi). Qed.

Let ph i : 'M[F]_(d, N) := phis k t t`_i.

Lemma le_after i j : (i.+1 < N)%N -> (i.+1 <= j)%N -> (j < N)%N -> t`_i.+1 <= t`_j.
Proof. by move=> _ hj hN; apply: t_le. Qed.

Lemma phi_next i : (i.+1 < N)%N ->
  Ck i.+1 *m (1%:M - Ek i.+1) = Pinf *m ph i.+1 *m (1%:M - Ek i.+1).
Proof. by move=> hi; apply: (Cst_next vk) => j; apply: le_after. Qed.

Lemma phi_prev i : (i.+1 < N)%N ->
  Ck i *m (1%:M - Ek i.+1) = Pinf *m (Apk i)^T *m ph i.+1 *m (1%:M - Ek i.+1).
Proof.
move=> hi; apply: (Cst_prev vk) => [j|]; first exact: le_after.
by rewrite -subr_ge0 step_ge0.
Qed.

Lemma phi_Sg i : (i.+1 < N)%N ->
  Ek i.+1 *m Sg *m (1%:M - Ek i.+1)
  = Ek i.+1 *m (Ck i)^T *m (Apk i)^T *m ph i.+1 *m (1%:M - Ek i.+1).
Proof.
move=> hi; apply: (Cst_Sig vk) => [j hj hN||j]; last exact: le_after.
  by apply: t_le => //; apply: ltnW.
by rewrite -subr_ge0 step_ge0.
Qed.

Lemma seq_smooth i : (i < N)%N ->
  exists W, [/\ W *m Sg = Ck i, (sh i).1 = W *m yv & (sh i).2 = Pinf - W *m (Ck i)^T].
Proof.
move=> hi; have N0 := leq_ltn_trans (leq0n _) hi; have [m0 P0] := o_0 N0.
have lst j : j.+1 = N -> (sh j).1 = o_m (o j) /\ (sh j).2 = o_P (o j).
  by move=> e; have := sh_last N0; rewrite -e /= => ->.
exact: (chain_smooth sSg E0 EkS Ekn (fun _ _ => sPinf vk) Srec Crec obs_row obs_diag
  obs_col m0 P0 mpS PpS fN filt_upd uS EN phi_next phi_prev phi_Sg lst G_eq
  (fun i hi => proj1 (sh_next hi)) (fun i hi => proj2 (sh_next hi)) hi).
Qed.

Lemma W_inv p (W C : 'M[F]_(p, N)) : W *m Sg = C -> W = C *m invmx Sg.
Proof. by move=> <-; rewrite mulmxK ?Sig_unit. Qed.

(** C02: smoothed state at the data. *)
Lemma seq_smooth_exact i : (i < N)%N ->
  sh i = (post_mean (Ck i) Sg yv, post_cov Pinf (Ck i) Sg).
Proof.
move=> hi; have [W [hW hm hP]] := seq_smooth hi.
by rewrite [LHS]surjective_pairing hm hP (W_inv hW).
Qed.

(** Prediction at an arbitrary time. *)
Let cd := seq_condition k t y R.
Section Point.
Variables (b : bool) (s : F).
Let c := cd b.
Let Cs : 'M[F]_(d, N) := Cst k t s.

Lemma nth_sh1 i : (i < N)%N -> nth 0 (c_ms c) i = (sh i).1.
Proof.
move=> hi; rewrite /c /cd /= (nth_map s0) // size_sm.
by rewrite leq_max hi orbT.
Qed.
Lemma nth_sh2 i : (i < N)%N -> nth 0 (c_Ps c) i = (sh i).2.
Proof.
move=> hi; rewrite /c /cd /= (nth_map s0) // size_sm.
by rewrite leq_max hi orbT.
Qed.

Lemma pr_kalman_winv i : (i < N)%N -> t`_i <= s ->
  exists W, winv Sg (Ek i.+1) Pinf Cs W (pr_kalman c i s).2
         /\ (pr_kalman c i s).1 = W *m yv.
Proof.
move=> hi hs; have N0 := leq_ltn_trans (leq0n _) hi.
have [_ [W [hW mW]]] := seq_pos_filter N0 hi.
exists (A (s - t`_i) *m W); rewrite /pr_kalman /= !nth_out //; split; last first.
  by rewrite mW mulmxA.
have pE : isproj (Ek i.+1).
  by split; [apply: tr_pid_mx | apply: pid_mx_id].
apply: (winv_predict pE hW).
  apply: (Cst_fwd vk) => // j hj; exact: t_le.
by rewrite (noise_stat vk) // subr_ge0.
Qed.

Lemma pr_smooth_exact i E (pm : 'cV[F]_d * 'M[F]_d) W : (i < N)%N ->
  E = Ek i -> s <= t`_i -> (forall j, (j < i)%N -> t`_j <= s) ->
  winv Sg E Pinf Cs W pm.2 -> pm.1 = W *m yv ->
  A (t`_i - s) *m pm.2 *m (A (t`_i - s))^T + Q (t`_i - s) = o_Pp (o i) ->
  A (t`_i - s) *m pm.1 = o_mp (o i) ->
  pr_smooth c i s pm = (post_mean Cs Sg yv, post_cov Pinf Cs Sg).
Proof.
case: pm => pm pP hi EE hs hpre hW hm hPn hmn; rewrite /= in hW hm hPn hmn.
rewrite /pr_smooth !nth_out // nth_sh1 // nth_sh2 //.
have [Wn [hWn hmn' hPn']] := seq_smooth hi.
set G := (solve _ _)^T.
have GP : G *m o_Pp (o i) = pP *m (A (t`_i - s))^T.
  by apply: solveTT; apply: pd_unit; case: (pd_both hi).
have pE : isproj E.
  by rewrite EE; split; [apply: tr_pid_mx | apply: pid_mx_id; apply: ltnW].
have CnE : Ck i *m E = A (t`_i - s) *m Cs *m E.
  by rewrite EE; apply: (Cst_fwd vk) => //; apply: ltnW.
have SnE : Pinf = A (t`_i - s) *m Pinf *m (A (t`_i - s))^T + Q (t`_i - s).
  by rewrite (noise_stat vk) // subr_ge0.
have hle j : (i <= j)%N -> (j < N)%N -> t`_i <= t`_j by move=> *; apply: t_le.
have h1 : Ck i *m (1%:M - E) = Pinf *m ph i *m (1%:M - E).
  by rewrite EE; apply: (Cst_next vk).
have h2 : Cs *m (1%:M - E) = Pinf *m (A (t`_i - s))^T *m ph i *m (1%:M - E).
  by rewrite EE; apply: (Cst_prev vk).
have h3 : E *m Sg *m (1%:M - E) =
   E *m Cs^T *m (A (t`_i - s))^T *m ph i *m (1%:M - E).
  by rewrite EE; apply: (Cst_Sig vk) => // j hj _; apply: hpre.
have e1 := smooth_weights (erefl _) hW CnE SnE h1 h2 h3 (esym hPn) GP hWn.
have e2 := smooth_cov sSg (erefl _) pE hW CnE SnE h1 h2 h3 (esym hPn) GP hWn hPn'.
rewrite hPn' hmn'; congr (_, _).
  rewrite -hmn hm /post_mean -(W_inv e1) mulmxDl -[G *m _ *m yv]mulmxA mulmxBl.
  by rewrite -[A _ *m W *m yv]mulmxA.
by rewrite -hPn' e2 /post_cov -(W_inv e1).
Qed.

Lemma pr_point_exact : (0 < N)%N ->
  pr_point c s = (post_mean Cs Sg yv, post_cov Pinf Cs Sg).
Proof.
move=> N0; have cnt := sorted_count s tsort.
rewrite /pr_point; set kn := searchsorted_right _ _.
have knE : kn = searchsorted_right t s by [].
have hlt j : (j < N)%N -> (kn <= j)%N -> s <= t`_j.
  by move=> hj hq; apply: ltW; rewrite ltNge -cnt // -knE -leqNgt.
have hge j : (j < N)%N -> (j < kn)%N -> t`_j <= s.
  by move=> hj hq; rewrite -cnt // -knE.
case: ifP => [|/negbT]; rewrite ?leqn0 -?lt0n => hq.
  have h0 : s <= t`_0 by apply: hlt => //; rewrite (eqP hq).
  have [m0 P0] := o_0 N0.
  apply: (@pr_smooth_exact 0 _ _ 0) => //=.
  - rewrite E0; exact: winv_init.
  - by rewrite mul0mx.
  - by rewrite P0 (noise_stat vk) // subr_ge0.
  - by rewrite mulmx0 m0.
have [hK|hK] := leqP (size (c_t c)) kn.
  have hl : (N.-1 < N)%N by rewrite prednK.
  have ht : t`_N.-1 <= s by apply: hge => //; apply: leq_trans hK.
  have [W [hW hm]] := pr_kalman_winv hl ht.
  rewrite -/N [LHS]surjective_pairing hm.
  move: hW; rewrite prednK // => -[_]; rewrite EN !mulmx1 => hW ->.
  by rewrite (W_inv hW).
have hp : (kn.-1 < N)%N by apply: leq_trans hK; rewrite ltnS leq_pred.
have ht : t`_kn.-1 <= s by apply: hge => //; rewrite prednK.
have [W [hW hm]] := pr_kalman_winv hp ht; rewrite prednK // in hW.
have hs : s <= t`_kn by apply: hlt.
have ee : t`_kn - t`_kn.-1 = (t`_kn - s) + (s - t`_kn.-1) by zmod.
have [en1 en2] : o_mp (o kn) = A (t`_kn - t`_kn.-1) *m o_m (o kn.-1) /\
   o_Pp (o kn) = A (t`_kn - t`_kn.-1) *m o_P (o kn.-1) *m (A (t`_kn - t`_kn.-1))^T
                     + Q (t`_kn - t`_kn.-1).
  by have := @o_next kn.-1; rewrite prednK //; apply.
have AA : A (t`_kn - t`_kn.-1) = A (t`_kn - s) *m A (s - t`_kn.-1).
  exact: (A_semi vk).
have QQ : Q (t`_kn - t`_kn.-1) =
  A (t`_kn - s) *m Q (s - t`_kn.-1) *m (A (t`_kn - s))^T + Q (t`_kn - s).
  rewrite /Q !(vs_noise vk) ?subr_ge0 ?(le_trans ht hs) // -!/(A _) AA trmx_mul.
  by mxzmod.
apply: (@pr_smooth_exact kn _ _ W) hW hm _ _ => //.
- by move=> j hj; apply: hge => //; apply: leq_trans hj (ltnW hK).
- rewrite en2 AA QQ /pr_kalman /= !nth_out // -!/(A _) -!/(Q _) trmx_mul.
  by mxzmod.
by rewrite en1 AA /pr_kalman /= !nth_out // mulmxA.
Qed.

End Point.
End SeqExact.
