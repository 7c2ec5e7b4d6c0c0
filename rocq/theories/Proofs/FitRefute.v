(** Order of the data, mean functions, small process noise. *)
From Coq Require Import Reals String Lra.
From mathcomp Require Import all_ssreflect all_algebra all_fingroup.
From Verif.Prelude Require Import Rstruct Psd.
From Verif.Spec Require Import Gp Markov Lti WfKernel LogNormal Data.
From Verif.Model Require Import Array Jax Ssm Sequential BaseKernels Kernel Integrated Frontend
  SequentialOps Gp.
From Verif.Proofs Require Import ScanLemmas SeqExact SeqGp GpExt Lti KernelProps KernelLti Evaluate KernelThms
  Names Rename Fit FitAny FitThms FitMore FrontThms FitExample.
Set Implicit Arguments.
Unset Strict Implicit.
Unset Printing Implicit Defensive.
Import Order.TTheory GRing.Theory Num.Theory.

Section Generic.
Variable F : realFieldType.
Local Open Scope ring_scope.

Lemma mx11_scal (M : 'M[F]_1) : M = (M 0 0)%:M.
Proof. by apply/matrixP => i j; rewrite !ord1 mxE mulr1n. Qed.
Lemma inv_scal (a : F) : invmx (a%:M : 'M_1) = (a^-1)%:M.
Proof. by rewrite invmx_scalar. Qed.

Lemma quad1 (X : Type) (x0 x : X) kern (r v : F) :
  gp_quad x0 kern [:: x] [:: r] [:: v] = v / (kern x x + r) * v.
Proof.
rewrite /gp_quad /post_mean.
have -> : col_of (size [:: x]) [:: v] = v%:M.
  by apply/matrixP => i j; rewrite !ord1 !mxE /= mulr1n.
have -> : data_cov (gram x0 kern [:: x]) (row_of (size [:: x]) [:: r]) = (kern x x + r)%:M.
  by apply/matrixP => i j; rewrite !ord1 !mxE /= !mulr1n.
by rewrite inv_scal tr_scalar_mx -!scalar_mxM mxE mulr1n.
Qed.

Lemma idx_perm N (idx : seq nat) : perm_eq idx (iota 0 N) ->
  exists s : 'S_N, forall i : 'I_N, nth 0%N idx i = s i.
Proof.
move=> h; have sz : size idx = N by rewrite (perm_size h) size_iota.
have lt (i : 'I_N) : (nth 0%N idx i < N)%N.
  have : nth 0%N idx i \in idx by rewrite mem_nth // sz.
  by rewrite (perm_mem h) mem_iota add0n.
have u : uniq idx by rewrite (perm_uniq h) iota_uniq.
have inj : injective (fun i => Ordinal (lt i)).
  move=> i j [] /eqP; rewrite nth_uniq ?sz // => /eqP; exact: val_inj.
by exists (perm inj) => i; rewrite permE.
Qed.

(** Two data with the same scalar model. *)
Section Two.
Variables (H : F -> 'M[F]_1) (A Q : F -> F -> 'M[F]_1) (P : 'M[F]_1).
Hypothesis hH : forall t, H t = 1%:M.
Hypothesis hP : P = 1%:M.
Variables (t0 t1 a q : F).
Hypothesis A0 : A 0 0 = 1%:M. Hypothesis Q0 : Q 0 0 = 0.
Hypothesis A1 : A 0 (t1 - t0) = a%:M. Hypothesis Q1 : Q 0 (t1 - t0) = q%:M.
Lemma two_S : (nth 0 (map (@o_S _ _) (KalmanFilter (@Ssm F 1 H A Q P) [:: t0; t1] [:: 0; 0] [:: 1; 1])) 1
   : 'M[F]_1) 0 0 = a * (1 - 2%:R^-1) * a + q + 1.
Proof.
rewrite /KalmanFilter /kalman_filter /=.
rewrite A0 Q0 A1 Q1 hP !hH addr0 /solve.
have two : (1 + 1 : F) = 2%:R by [].
do 4! rewrite ?trmx1 ?tr_scalar_mx ?mul1mx ?mulmx1 -?raddfD -?raddfB /= ?inv_scal -?scalar_mxM ?two.
have h2 : (2%:R : F) != 0 by rewrite pnatr_eq0.
by rewrite !mxE !mulr1n mulVf // mul1r.
Qed.
End Two.
End Generic.

Local Open Scope R_scope.

(** A mean function has no effect on the likelihood. *)
Lemma mean_refuted : exists k X diag mean y kern g,
  wf_kernel k /\ const_obs k /\ valid_data X diag y /\ steps_kept k (times X) /\
  (forall X1 X2, kernel_evaluate false k X1 X2 = inr (kern X1 X2)) /\
  gaussian_process smolgp_ops k X diag (Some mean) NoSolver = inr g /\
  gp_log_probability smolgp_ops g y
    <> inr (Fin (log_normal (CT 0) kern (coord_list X) (variances diag (num_coords X))
         (mkseq (fun i => nth 0 y i - mean (nth (CT 0) (coord_list X) i)) (num_coords X)))).
Proof.
pose k := Exp 1 1 "Exp"; pose X := CArray [:: 0]; pose diag := Some (Scalar 1).
pose mean (_ : coord) := 1; pose y := [:: 0].
have wf : wf_kernel k by split; lra.
have vd : valid_data X diag y.
  split=> // [i j /andP[]|[|i] //=]; last by lra.
  by case: i j => [|i] [|j] //= _ _; lra.
have kept : steps_kept k (times X) by split.
have [kern hk] : exists kern, forall X1 X2, kernel_evaluate false k X1 X2 = inr (kern X1 X2).
  exact: kernel_evaluate_fun.
have nok : names_ok k by left; split.
have [g hg] := thm_defined (Some mean) wf vd (or_introl erefl) nok.
exists k, X, diag, mean, y, kern, g; do ![split=> //].
rewrite (thm_log_probability wf _ vd kept hk (or_introl erefl) hg) // => -[] /=.
rewrite /log_normal /= /mean /= !quad1.
have := dense_var wf _ vd hk (CT 0) => -[] // h1 h2.
have k0 : 0 <= kern (CT 0) (CT 0) by apply: Rle_trans h1 h2.
rewrite [nth 0 y 0]/=; move: (gp_det _ _ _ _) (ln (2 * PI)) => D l.
move: (kern (CT 0) (CT 0)) k0 => v v0; toR => e.
have {e} : 0 / (v + 1) * 0 = (0 - 1) / (v + 1) * (0 - 1) by lra.
have : 0 < / (v + 1) by apply: Rinv_0_lt_compat; lra.
by rewrite /Rdiv; move: (/ _) => z; nra.
Qed.

(** Permuting the data. *)
Section Order.
Variables (X : Type) (x0 : X) (kern : X -> X -> R) (xs : seq X) (d y : seq R) (idx : seq nat).
Hypothesis pidx : perm_eq idx (iota 0 (size xs)).
Hypothesis det0 : gp_det x0 kern xs d <> 0.

Lemma log_normal_perm :
  log_normal x0 kern (map (nth x0 xs) idx) (map (nth 0 d) idx) (map (nth 0 y) idx)
  = log_normal x0 kern xs d y.
Proof.
have [s hs] := idx_perm pidx.
have sz : size idx = size xs by rewrite (perm_size pidx) size_iota.
have K i j : kern (nth x0 (map (nth x0 xs) idx) (i : 'I_(size xs))) (nth x0 (map (nth x0 xs) idx) (j : 'I_(size xs)))
  = kern (nth x0 xs (s i)) (nth x0 xs (s j)) by rewrite !(nth_map 0%N) ?sz // !hs.
rewrite /log_normal !gp_quadE !gp_detE !size_map sz.
congr (_ * (_ + ln _ + _)).
- apply: (@gpq_perm [realFieldType of R] _ s).
  + exact: K.
  + by move=> j; rewrite (nth_map 0%N) ?sz // hs.
  + by move=> j; rewrite (nth_map 0%N) ?sz // hs.
  + by rewrite unitmxE unitfE; apply/eqP.
- apply: (@gpd_perm [realFieldType of R] _ s).
  + exact: K.
  + by move=> j; rewrite (nth_map 0%N) ?sz // hs.
Qed.
End Order.

Section OrderThm.
Variables (k : kernel) (t d y : seq R) (idx : seq nat) (kern : coord -> coord -> R) (mean : option (coord -> R)).
Variables (sa : solver_arg) (g g' : gp).
Let X := CArray t. Let X' := CArray (map (nth 0 t) idx).
Let dg := Some (Vector d). Let dg' := Some (Vector (map (nth 0 d) idx)).
Let y' := map (nth 0 y) idx.
Hypothesis pidx : perm_eq idx (iota 0 (size t)).
Hypotheses (wf : wf_kernel k) (co : const_obs k).
Hypotheses (vd : valid_data X dg y) (vd' : valid_data X' dg' y').
Hypotheses (sd : size d = size t).
Hypotheses (kept : steps_kept k t) (kept' : steps_kept k (times X')).
Hypothesis hkern : forall X1 X2, kernel_evaluate false k X1 X2 = inr (kern X1 X2).
Hypothesis hsa : default_solver sa.
Hypothesis hg : gaussian_process smolgp_ops k X dg mean sa = inr g.
Hypothesis hg' : gaussian_process smolgp_ops k X' dg' mean sa = inr g'.

Lemma varsE n v : size v = n -> variances (Some (Vector v)) n = v.
Proof. by case: v => [|x [|x' v]] // <-. Qed.

Lemma order_log_probability : gp_log_probability smolgp_ops g' y' = gp_log_probability smolgp_ops g y.
Proof.
rewrite (thm_log_probability wf co vd kept hkern hsa hg).
rewrite (thm_log_probability wf co vd' kept' hkern hsa hg').
have sz : size idx = size t by rewrite (perm_size pidx) size_iota.
rewrite !varsE; [|by rewrite sd /num_coords |by rewrite /num_coords /= !size_map sz].
have e : coord_list X' = map (nth (CT 0) (coord_list X)) idx.
  rewrite /= -map_comp; apply/eq_in_map => i hi /=.
  have lt : (i < size t)%N by move: hi; rewrite (perm_mem pidx) mem_iota add0n.
  by rewrite (nth_map 0).
rewrite e log_normal_perm //; first by rewrite size_map.
have fd := fit_det wf co vd kept hkern.
rewrite varsE in fd; last by rewrite sd.
rewrite -fd; apply/eqP/prodf_neq0 => i _.
apply: lt0r_neq0; apply/RltP.
have := fit_S_pos wf vd kept (ltn_ord i); rewrite varsE //; by rewrite sd.
Qed.
End OrderThm.

(** Unsorted data are not rejected, and the likelihood is lost. *)
Lemma order_refuted : exists k t d y idx g g',
  wf_kernel k /\ const_obs k /\ perm_eq idx (iota 0 (size t)) /\
  valid_data (CArray t) (Some (Vector d)) y /\ steps_kept k t /\
  gaussian_process smolgp_ops k (CArray t) (Some (Vector d)) None NoSolver = inr g /\
  gaussian_process smolgp_ops k (CArray (map (nth 0 t) idx)) (Some (Vector (map (nth 0 d) idx))) None
    NoSolver = inr g' /\
  gp_log_probability smolgp_ops g' (map (nth 0 y) idx) <> gp_log_probability smolgp_ops g y.
Proof.
pose k := Exp 1 1 "Exp"; pose t := [:: 0; 1]; pose d := [:: 1; 1]; pose y := [:: 0; 0].
pose idx := [:: 1; 0]%N.
have wf : wf_kernel k by split; lra.
have vd : valid_data (CArray t) (Some (Vector d)) y.
  split=> //; last by case=> [|[|i]] //= _; lra.
  by move=> i j /andP[]; case: i j => [|[|i]] [|[|j]] //= _ _; lra.
have [kern hk] : exists kern, forall X1 X2, kernel_evaluate false k X1 X2 = inr (kern X1 X2).
  exact: kernel_evaluate_fun.
have nok : names_ok k by left; split.
have [g hg] := thm_defined None wf vd (or_introl erefl) nok.
have kept : steps_kept k t by [].
exists k, t, d, y, idx, g.
exists (fitted k (CArray (map (nth 0 t) idx)) (Some (Vector (map (nth 0 d) idx))) None k).
do 5![split=> //]; split; first exact: hg.
split; first by rewrite gaussian_processE //; left.
rewrite (thm_log_probability wf _ vd kept hk (or_introl erefl) hg) //.
rewrite /fitted any_log_probability //; set lp := compute_log_prob _ _.
suff -> : lp = NegInf by [].
rewrite /lp /compute_log_prob; case: ifP => // /all_nthP h.
have {h} := h 0%R 1%N (ltac:(done)) => /RltbP.
have A0 x : mA (denote k) (CT 0) (CT x) = ((exp (- x))%:M)%R.
  by apply/matrixP => i j; rewrite !ord1 !mxE /= lag0 mulr1n; congr exp; field.
have Q0 x : mQ (denote k) (CT 0) (CT x) = ((1 - exp (- (2 * x)))%:M)%R.
  apply/matrixP => i j; rewrite !ord1 !mxE /= lag0 mulr1n /sq; toR.
  by rewrite (_ : -2 * x * (1 / 1) = - (2 * x)); field.
rewrite (@two_S _ _ _ _ _ _ _ 1 0 (exp 1) (1 - exp 2)) //.
- have e2 : 2 < exp 1 by have := exp_ineq1 1; lra.
  have -> : exp 2 = exp 1 * exp 1 by rewrite -exp_plus; congr exp; lra.
  by toR; nra.
- by move=> x; apply/matrixP => i j; rewrite !ord1 !mxE.
- by apply/matrixP => i j; rewrite !ord1 !mxE /= /sq; toR; lra.
- by apply: (etrans (A0 0)); rewrite Ropp_0 exp_0.
- by apply: (etrans (Q0 0)); rewrite Rmult_0_r Ropp_0 exp_0; apply/matrixP => i j; rewrite !ord1 !mxE mulr1n; toR; lra.
- by apply: (etrans (A0 _)); congr (_%:M)%R; congr exp; toR; lra.
- by apply: (etrans (Q0 _)); congr (_%:M)%R; congr (_ - exp _); toR; lra.
Qed.

(** The effect of one wrong process noise. *)
Section TwoNoise.
Variables (F : realFieldType) (n : nat) (H : F -> 'M[F]_(1, n)) (A Q Q' : F -> F -> 'M[F]_n) (P : 'M[F]_n).
Variables (t0 t1 r0 r1 : F).
Hypothesis Q0 : (Q 0 0 = Q' 0 0)%R.
Let o := KalmanFilter (Ssm H A Q P) [:: t0; t1] [:: 0; 0]%R [:: r0; r1].
Let o' := KalmanFilter (Ssm H A Q' P) [:: t0; t1] [:: 0; 0]%R [:: r0; r1].
Lemma twoS0 : nth 0%R (map (@o_S _ _) o) 0 = nth 0%R (map (@o_S _ _) o') 0.
Proof. by rewrite /o /o' /= Q0. Qed.
Lemma twoS1 : nth 0%R (map (@o_S _ _) o') 1
  = (nth 0 (map (@o_S _ _) o) 1 + H t1 *m (Q' 0 (t1 - t0) - Q 0 (t1 - t0)) *m (H t1)^T)%R.
Proof.
rewrite /o /o' /= Q0; move: (_ - _ *m _ *m _)%R => Pk.
rewrite -addrAC; congr (_ + _)%R; rewrite -mulmxDl -mulmxDr; congr (_ *m _ *m _)%R.
by rewrite -addrA; congr (_ + _)%R; rewrite addrCA subrr addr0.
Qed.
Lemma two_v : nth 0%R (map (@o_v _ _) o) 0 = 0%R /\ nth 0%R (map (@o_v _ _) o) 1 = 0%R.
Proof.
have z : (0%:M : 'M[F]_1)%R = 0%R by apply/matrixP => i j; rewrite !mxE mul0rn.
by rewrite /o /= !mulmx0 z !subr0 !mulmx0 !addr0 !mulmx0 subr0.
Qed.
End TwoNoise.

Lemma flush_kernel_noise00 : 
  let m := sho_model 1 1 flush_sigma in
  mQ m (CT 0) (CT (flush_dt 1)) 0%R 0%R = 0 /\
  exact_noise m (CT 0) (CT (flush_dt 1)) 0%R 0%R > 0.
Proof.
have w0 : 0 < 1 by lra. have [e1 e2] := ex_bound w0.
have r := raw00 flush_sigma w0.
split=> /=.
  rewrite lag0 /sho_Q (negbTE q1_under).
  have -> : Rltb (1 / 2) 1 by apply/RltbP; lra.
  rewrite /sho_Q_underdamped mxE r /flush; case: RltbP => // h; case: h.
  rewrite Rabs_pos_eq /sq /flush_sigma; nra.
rewrite /exact_noise /= lag0 /sho_A (negbTE q1_under).
have -> : Rltb (1 / 2) 1 by apply/RltbP; lra.
have -> := ShoLti.sho_noise_under flush_sigma (flush_dt 1) w0; last by lra.
rewrite r /sq /flush_sigma; nra.
Qed.

Lemma sho_row0 (M : 'M[R]_2) : (sho_H *m M *m sho_H^T)%R 0%R 0%R = M 0%R 0%R.
Proof.
have -> : sho_H = delta_mx 0%R 0%R by apply/matrixP => i j; rewrite !mxE ord1; case: j => -[|[|j]].
by rewrite trmx_delta -rowE -colE !mxE.
Qed.
Lemma mx_sub0 (M N : 'M[R]_2) x : N 0%R 0%R = 0 -> M 0%R 0%R = x -> (M - N)%R 0%R 0%R = x.
Proof. by move=> h1 h2; rewrite !mxE h1 h2 subr0. Qed.

Lemma inr_neq (a b : xreal) : a <> b -> inr a <> inr b :> err + xreal.
Proof. by move=> h [] /h. Qed.

Lemma ln_neq (a b : R) : 0 < a -> a < b -> ln a <> ln b.
Proof. by move=> a0 ab e; have := ln_increasing _ _ a0 ab; lra. Qed.

Lemma two_log_prob (vm Sm vi Si : seq 'M[R]_1) (q D dl : R) : size vm = 2%N -> size Sm = 2%N ->
  nth 0%R vm 0 = 0%R -> nth 0%R vm 1 = 0%R -> nth 0%R vi 0 = 0%R -> nth 0%R vi 1 = 0%R ->
  nth 0%R Sm 0 = nth 0%R Si 0 ->
  (nth 0%R Si 1 : 'M[R]_1) 0%R 0%R = (nth 0%R Sm 1 : 'M[R]_1) 0%R 0%R + dl -> 0 < dl ->
  0 < (nth 0%R Si 0 : 'M[R]_1) 0%R 0%R ->
  (\sum_(i < 2) (nth 0 vi i : 'M[R]_1) 0 0 ^+ 2 / (nth 0 Si i : 'M[R]_1) 0 0)%R = q ->
  (\prod_(i < 2) (nth 0 Si i : 'M[R]_1) 0 0)%R = D ->
  compute_log_prob vm Sm <> Fin (- (1 / 2) * (q + ln D + INR 2 * ln (2 * PI))).
Proof.
move=> sv sS v0 v1 w0 w1 e0 e1 d0 p0 hq hD.
have z : (0 : 'M[R]_1)%R 0%R 0%R = 0 by rewrite mxE.
have q0 : q = 0.
  by rewrite -hq !big_ord_recr big_ord0 /= w0 w1 z; toR; rewrite /Rdiv !Rmult_0_l; lra.
case: (Rlt_dec 0 ((nth 0%R Sm 1 : 'M[R]_1) 0%R 0%R)) => p1; last first.
  rewrite /compute_log_prob; case: ifP => // /all_nthP h; case: p1.
  by apply/RltbP/h; rewrite sS.
rewrite compute_log_probE ?sv ?sS //; last first.
  by case=> [|[|i]] // _; rewrite e0.
rewrite !big_ord_recr !big_ord0 /= v0 v1 z -hD !big_ord_recr !big_ord0 /= e0 e1 q0.
move: (fun_of_matrix _ _ _) (fun_of_matrix _ _ _) p0 p1 => b a a0 b0; toR => -[] h.
have : ln (1 * a * b) = ln (1 * a * (b + dl)).
  by move: (ln (R1 * a * b)) (ln (R1 * a * (b + dl))) (ln (2 * PI)) (/ a) (/ b) h => *; lra.
by apply: ln_neq; nra.
Qed.

(** The flush to zero of small process noise changes the likelihood. *)
Definition k_flush : kernel := SHO 1 1 flush_sigma "SHO".
Definition X_flush : coords := CArray [:: 0; flush_dt 1].
Lemma flush_valid r : 0 < r -> valid_data X_flush (Some (Vector [:: r; r])) [:: 0; 0].
Proof.
move=> r0; have dt0 := flush_dt_ge0.
split=> //; last by case=> [|[|i]] //= _; lra.
by move=> i j /andP[]; case: i j => [|[|i]] [|[|j]] //= _ _; lra.
Qed.
Lemma flush_log_neq kern : let dg := Some (Vector [:: 1; 1]) in
  (forall X1 X2, kernel_evaluate false k_flush X1 X2 = inr (kern X1 X2)) ->
  exists g, gaussian_process smolgp_ops k_flush X_flush dg None NoSolver = inr g /\
  gp_log_probability smolgp_ops g [:: 0; 0]
    <> inr (Fin (log_normal (CT 0) kern (coord_list X_flush) [:: 1; 1] [:: 0; 0])).
Proof.
pose k := k_flush; pose y := [:: 0; 0].
pose dg := Some (Vector [:: 1; 1]); pose X := X_flush => /= hk.
have wf : wf_kernel k by rewrite /= /flush_sigma; repeat split; lra.
have vd : valid_data X dg y by apply: flush_valid; lra.
have co : const_obs k by [].
exists (fitted k X dg None k).
split; first by rewrite gaussian_processE //; left.
rewrite /fitted any_log_probability //.
have kE := kernE wf co hk.
have q := kf_quad (vks wf) y (t_sorted vd) (nd_pos vd).
have dd := kf_det (vks wf) y (t_sorted vd) (nd_pos vd).
have pos := kf_S_pos (vks wf) y (t_sorted vd) (nd_pos vd).
have e0 : mQ (denote k) (CT 0) (CT 0) = exact_noise (denote k) (CT 0) (CT 0).
  by apply: kernel_noise => // _ _ i j; left; exact: sho_raw_0.
have s0 := @twoS0 _ _ (fun x => mH (denote k) (CT x)) (fun a b => mA (denote k) (CT a) (CT b))
  (fun a b => mQ (denote k) (CT a) (CT b)) (fun a b => exact_noise (denote k) (CT a) (CT b)) (mPinf (denote k))
  0 (flush_dt 1) 1 1 e0.
have s1 := @twoS1 _ _ (fun x => mH (denote k) (CT x)) (fun a b => mA (denote k) (CT a) (CT b))
  (fun a b => mQ (denote k) (CT a) (CT b)) (fun a b => exact_noise (denote k) (CT a) (CT b)) (mPinf (denote k))
  0 (flush_dt 1) 1 1 e0.
have [v0 v1] := @two_v _ _ (fun x => mH (denote k) (CT x)) (fun a b => mA (denote k) (CT a) (CT b))
  (fun a b => mQ (denote k) (CT a) (CT b)) (mPinf (denote k))
  0 (flush_dt 1) 1 1.
have [v0' v1'] := @two_v _ _ (fun x => mH (denote k) (CT x)) (fun a b => mA (denote k) (CT a) (CT b))
  (fun a b => exact_noise (denote k) (CT a) (CT b)) (mPinf (denote k))
  0 (flush_dt 1) 1 1.
have [f1 f2] := flush_kernel_noise00.
have e : log_normal (CT 0) kern (coord_list X) [:: 1; 1] y
  = - (1 / 2) * (gp_quad (0%R : R) (Markov.obs_cov (to_ssm (ideal (denote k)))) (times X)
         (variances dg (num_coords X)) y
      + ln (gp_det (0%R : R) (Markov.obs_cov (to_ssm (ideal (denote k)))) (times X)
         (variances dg (num_coords X))) + INR 2 * ln (2 * PI)).
  rewrite /log_normal -(gp_quad_map (CT 0) (0%R : R) kE) -(gp_det_map (CT 0) (0%R : R) kE).
  by rewrite -times_coord_list.
apply: inr_neq; rewrite e.
move: q dd s0 s1 v0 v1 v0' v1' pos.
set oi := KalmanFilter (to_ssm (ideal _)) _ _ _.
set om := KalmanFilter (to_ssm (denote k)) _ _ _.
have sm : size om = 2%N by apply: size_out.
clearbody oi om => q dd s0; rewrite (subr0 (flush_dt 1)) => s1 v0 v1 v0' v1' pos.
have s1' : (nth 0%R (map (@o_S _ _) oi) 1 : 'M[R]_1) 0%R 0%R = (nth 0%R (map (@o_S _ _) om) 1 : 'M[R]_1) 0%R 0%R
   + exact_noise (sho_model 1 1 flush_sigma) (CT 0) (CT (flush_dt 1)) 0%R 0%R.
  rewrite s1; apply: (etrans (mxE _ _ _ _)); apply: f_equal.
  by apply: (etrans (sho_row0 _)); apply: (mx_sub0 f1).
have p0 := pos 0%N erefl.
clear - q dd s0 v0 v1 v0' v1' p0 sm f2 s1'.
apply: (two_log_prob _ _ v0 v1 v0' v1' s0 s1' f2 _ q dd); try by rewrite size_map.
exact/RltP.
Qed.
Lemma flush_log_refuted : exists k X diag y kern g,
  wf_kernel k /\ const_obs k /\ sharp_kernel k /\ valid_data X diag y /\
  (forall X1 X2, kernel_evaluate false k X1 X2 = inr (kern X1 X2)) /\
  gaussian_process smolgp_ops k X diag None NoSolver = inr g /\
  gp_log_probability smolgp_ops g y
    <> inr (Fin (log_normal (CT 0) kern (coord_list X) (variances diag (num_coords X)) y)).
Proof.
have wf : wf_kernel k_flush by rewrite /= /flush_sigma; repeat split; lra.
have [kern hk] : exists kern, forall X1 X2, kernel_evaluate false k_flush X1 X2 = inr (kern X1 X2).
  exact: kernel_evaluate_fun.
have [g [hg ne]] := flush_log_neq hk.
exists k_flush, X_flush, (Some (Vector [:: 1; 1])), [:: 0; 0], kern, g.
do 2![split=> //]; split; first by left; exact: q1_under.
split; first by apply: flush_valid; lra.
by split; [exact: hk | split].
Qed.
