(** Linearity in y and invariance under shifts of the time origin (sequential solver,
    any kernel). *)
From Coq Require Import Reals String Lra.
From mathcomp Require Import all_ssreflect all_algebra.
From Verif.Prelude Require Import Rstruct Psd.
From Verif.Spec Require Import WfKernel Data.
From Verif.Model Require Import Array Jax Ssm Sequential BaseKernels Kernel Integrated Frontend
  SequentialOps Gp.
From Verif.Proofs Require Import SeqExact SeqLinear KernelLti KernelThms Names Rename Fit FitAny.
Set Implicit Arguments.
Unset Strict Implicit.
Unset Printing Implicit Defensive.
Import Order.TTheory GRing.Theory Num.Theory.

Lemma proj_mean_lin d (h : 'M[R]_(1, d)) a (m m1 m2 : 'cV[R]_d) : (m = a *: m1 + m2)%R ->
  proj_mean h m = Rplus (Rmult a (proj_mean h m1)) (proj_mean h m2).
Proof. by move=> ->; rewrite /proj_mean mulmxDr -scalemxAr !mxE. Qed.

Lemma nth_test_mean k X diag y k2 Xt cp i : (i < num_coords Xt)%N ->
  nth 0%R (test_mean k X diag y k2 Xt cp) i
  = proj_mean (Frontend.obs_row (sdim_of (Solver StateSpaceSolver k X (variances diag (num_coords X)))) k2 cp
                 (nth (CT 0%R) (coord_list Xt) i)) (at_test k X diag y Xt i).1.
Proof. by move=> hi; exact: nth_mkseq. Qed.
Lemma nth_at_data_mean k X diag y k2 cp i : (i < num_coords X)%N ->
  nth 0%R (at_data_mean k X diag y k2 cp) i
  = proj_mean (Frontend.obs_row (sdim_of (Solver StateSpaceSolver k X (variances diag (num_coords X)))) k2 cp
                 (nth (CT 0%R) (coord_list X) i)) (nth 0%R (c_ms (fit_cond k X diag y true)) i).
Proof. by move=> hi; exact: nth_mkseq. Qed.

Section Lin.
Variables (k : kernel) (X : coords) (diag : option farray) (mean : option (coord -> R)).
Variables (sa : solver_arg) (g : gp).
Hypothesis ni : gp_integrated k = false.
Hypothesis hsa : default_solver sa.
Hypothesis hd : size (variances diag (num_coords X)) = num_coords X.
Hypothesis hg : gaussian_process smolgp_ops k X diag mean sa = inr g.
Let N := num_coords X.
Let nd := variances diag N.
Let m := denote k.

Section Given.
Variables (a : R) (y y1 y2 : seq R) (comp : option string).
Hypothesis hy : forall i, (i < N)%N ->
  nth 0%R y i = Rplus (Rmult a (nth 0%R y1 i)) (nth 0%R y2 i).
Variables (lp lp1 lp2 : xreal) (c c1 c2 : gp).
Hypothesis hc : gp_condition smolgp_ops g y None comp = inr (lp, c).
Hypothesis hc1 : gp_condition smolgp_ops g y1 None comp = inr (lp1, c1).
Hypothesis hc2 : gp_condition smolgp_ops g y2 None comp = inr (lp2, c2).

Lemma cond_shape z lpz cz : gp_condition smolgp_ops g z None comp = inr (lpz, cz) ->
  exists k' k'', [/\ assign_unique_kernel_names k = inr k', assign_unique_kernel_names k' = inr k'',
    transition_raises false k = None, N <> 1%N &
    cz = @Gp k'' X (fun _ => 0%R) (at_data_mean k X diag z k' comp)
      (Some (Vector (at_data_var k X diag z k' comp))) nd (Solver StateSpaceSolver k X nd)
      (Some (states_ k X diag z))].
Proof.
have [k' [e eg]] := gaussian_process_inr hsa hd ni hg; rewrite eg => h.
have [|nr n1 _ [k'' [e' ->]]] := any_condition_inr _ h; first by rewrite (unique_integrated e).
by exists k', k''.
Qed.

Lemma thm_mean_linear : forall i, (i < N)%N ->
  nth 0%R (g_mean c) i = Rplus (Rmult a (nth 0%R (g_mean c1) i)) (nth 0%R (g_mean c2) i).
Proof.
have [k1 [k1' [e1 e1' nr n1 ->]]] := cond_shape hc.
have [k2 [k2' [e2 e2' _ _ ->]]] := cond_shape hc1.
have [k3 [k3' [e3 e3' _ _ ->]]] := cond_shape hc2.
have [? ?] : k2 = k1 /\ k3 = k1 by (split; [move: e2 | move: e3]); rewrite e1 => -[].
subst k2 k3 => i hi; rewrite [g_mean _]/= [g_mean _ in X in _ = X]/=.
rewrite /at_data_mean !nth_mkseq //; apply: proj_mean_lin.
exact: (cond_ms_lin (to_ssm m) nd hy true hi).
Qed.

Lemma covs_same z z' b : (0 < N)%N ->
  let r z := fit_cond k X diag z b in
  [/\ c_Pp (r z) = c_Pp (r z'), c_Pf (r z) = c_Pf (r z') & c_Ps (r z) = c_Ps (r z')].
Proof.
exact: cond_covs_same.
Qed.

Lemma thm_var_same : g_var c1 = g_var c /\ g_var c2 = g_var c.
Proof.
have [k1 [k1' [e1 e1' nr n1 ->]]] := cond_shape hc.
have [k2 [k2' [e2 e2' _ _ ->]]] := cond_shape hc1.
have [k3 [k3' [e3 e3' _ _ ->]]] := cond_shape hc2.
have [? ?] : k2 = k1 /\ k3 = k1 by (split; [move: e2 | move: e3]); rewrite e1 => -[].
subst k2 k3; rewrite /=.
have h z : at_data_var k X diag z k1 comp = at_data_var k X diag y k1 comp.
  apply: eq_mkseq_in => i hi.
  by have [_ _ e] := covs_same z y true (leq_ltn_trans (leq0n _) hi); rewrite -/m e.
by rewrite !h.
Qed.

Lemma thm_predict_linear Xt y' cp : (0 < N)%N -> exists d mu mu1 mu2 va,
  [/\ gp_predict smolgp_ops c (Some Xt) y' false cp true = inr (existT prediction d (PMeanVar (squeeze mu) va)),
      gp_predict smolgp_ops c1 (Some Xt) y' false cp true = inr (existT prediction d (PMeanVar (squeeze mu1) va)),
      gp_predict smolgp_ops c2 (Some Xt) y' false cp true = inr (existT prediction d (PMeanVar (squeeze mu2) va)),
      [/\ size mu = num_coords Xt, size mu1 = num_coords Xt & size mu2 = num_coords Xt] &
      forall i, (i < num_coords Xt)%N ->
        nth 0%R mu i = Rplus (Rmult a (nth 0%R mu1 i)) (nth 0%R mu2 i)].
Proof.
move=> N0.
have [k1 [k1' [e1 e1' nr n1 ->]]] := cond_shape hc.
have [k2 [k2' [e2 e2' _ _ ->]]] := cond_shape hc1.
have [k3 [k3' [e3 e3' _ _ ->]]] := cond_shape hc2.
have [? ?] : k2 = k1 /\ k3 = k1 by (split; [move: e2 | move: e3]); rewrite e1 => -[].
subst k2 k3.
have [? ?] : k2' = k1' /\ k3' = k1' by (split; [move: e2' | move: e3']); rewrite e1' => -[].
subst k2' k3'.
exists (sdim_of (Solver StateSpaceSolver k X nd)), (test_mean k X diag y k1' Xt cp),
  (test_mean k X diag y1 k1' Xt cp), (test_mean k X diag y2 k1' Xt cp),
  (Some (squeeze (test_var k X diag y k1' Xt cp))).
have tv z : test_var k X diag z k1' Xt cp = test_var k X diag y k1' Xt cp.
  rewrite /test_var; apply: eq_mkseq_in => i hi.
  by apply: (f_equal (proj_var _)); exact: (cond_point_cov_same (to_ssm m) nd z y true _ N0).
split.
- by apply: etrans; first exact: any_predict.
- apply: etrans; first exact: any_predict.
  by rewrite (tv y1); reflexivity.
- apply: etrans; first exact: any_predict.
  by rewrite (tv y2); reflexivity.
- by split; exact: size_mkseq.
- move=> i hi; have P z := nth_test_mean k X diag z k1' cp hi.
  apply: (etrans (P y)); symmetry.
  apply: (etrans (f_equal2 (fun u v => Rplus (Rmult a u) v) (P y1) (P y2))); symmetry.
  apply: proj_mean_lin.
  exact: (cond_point_mean_lin (to_ssm m) nd true _ N0 hy).
Qed.
End Given.

Lemma thm_cov_same z z' b r r' : (0 < N)%N ->
  so_condition (smolgp_ops (sv_kind (g_solver g))) (g_solver g) z b = inr r ->
  so_condition (smolgp_ops (sv_kind (g_solver g))) (g_solver g) z' b = inr r' ->
  [/\ r_Pp r = r_Pp r', r_Pf r = r_Pf r' & r_Ps r = r_Ps r'].
Proof.
have [k' [e eg]] := gaussian_process_inr hsa hd ni hg.
move: r r'; rewrite eg => r r' N0; rewrite [sv_kind _]/= => h h'.
have nr : transition_raises false k = None.
  by move: h; rewrite /= /seq_solver_condition /traced_transition /=; case: transition_raises.
have : inr r = inr (fit_results k X diag z b) :> err + _.
  by rewrite -h /= /seq_solver_condition /traced_transition /= nr.
have : inr r' = inr (fit_results k X diag z' b) :> err + _.
  by rewrite -h' /= /seq_solver_condition /traced_transition /= nr.
case=> -> [->]; exact: (covs_same z z' b N0).
Qed.
End Lin.

(** ** Shift of the time origin *)
Lemma const_obs_erase k : const_obs (erase k) = const_obs k.
Proof. by elim: k => //= [k1 -> k2 -> //|k1 -> k2 -> //]. Qed.
Lemma unique_const_obs k k' : assign_unique_kernel_names k = inr k' -> const_obs k -> const_obs k'.
Proof. by move=> /unique_erase e; rewrite -(const_obs_erase k') e const_obs_erase. Qed.

Lemma observation_model_const k comp x x' : const_obs k ->
  observation_model k x comp = observation_model k x' comp.
Proof.
elim: k; try by (intros; rewrite /observation_model; congr (_ *: _)%R; apply: const_obsP).
- by move=> k1 IH1 k2 IH2 [/= /IH1 e1 /IH2 e2]; rewrite /= e1 e2.
- by move=> k1 IH1 k2 IH2 [/= /IH1 e1 /IH2 e2]; rewrite /= e1 e2.
Qed.

Lemma const_obs_not_integrated k : const_obs k -> gp_integrated k = false.
Proof. by rewrite /gp_integrated; elim: k => //= k1 IH1 k2 IH2 [w1 w2]; rewrite has_cat IH1 ?IH2. Qed.
Section Shift.
Variables (k : kernel) (X : coords) (diag : option farray) (mean : option (coord -> R)).
Variables (sa : solver_arg) (dt : R) (y : seq R).
Hypothesis co : const_obs k.
Hypothesis hsa : default_solver sa.
Hypothesis hd : size (variances diag (num_coords X)) = num_coords X.
Hypothesis N0 : (0 < num_coords X)%N.
Let X' := shift_coords dt X.
Let m := denote k.

Lemma times_shift Z : times (shift_coords dt Z) = [seq Rplus u dt | u <- times Z].
Proof. by case: Z. Qed.
Lemma num_shift Z : num_coords (shift_coords dt Z) = num_coords Z.
Proof. by rewrite /num_coords times_shift size_map. Qed.
Let nd := variances diag (num_coords X).

Lemma sobs_const u u' : sobs (to_ssm m) u = sobs (to_ssm m) u'.
Proof. exact: const_obsP. Qed.

Let t' := [seq Rplus u dt | u <- times X].
Lemma ms_shift b : c_ms (seq_condition (to_ssm m) t' y nd b) = c_ms (seq_condition (to_ssm m) (times X) y nd b).
Proof. exact: (cond_ms_shift (times X) y nd dt sobs_const b). Qed.
Lemma Ps_shift b : c_Ps (seq_condition (to_ssm m) t' y nd b) = c_Ps (seq_condition (to_ssm m) (times X) y nd b).
Proof. exact: (cond_Ps_shift (times X) y nd dt sobs_const b). Qed.
Lemma point_shift b u : @pr_point _ (to_ssm m) (seq_condition (to_ssm m) t' y nd b) (Rplus u dt)
  = @pr_point _ (to_ssm m) (seq_condition (to_ssm m) (times X) y nd b) u.
Proof. exact: (cond_point_shift y nd dt sobs_const b u N0). Qed.

Lemma row_const k' comp x x' : denote k' = m -> const_obs k' ->
  Frontend.obs_row (md m) k' comp x = Frontend.obs_row (md m) k' comp x'.
Proof. by move=> <- ck; rewrite !obs_rowE; apply: observation_model_const. Qed.

Let o := KalmanFilter (to_ssm m) (times X) y nd.
Let o' := KalmanFilter (to_ssm m) (times X') y (variances diag (num_coords X')).
Lemma out_shift : o' = o.
Proof. by rewrite /o' num_shift times_shift; apply: KalmanFilter_shift; apply: sobs_const. Qed.

Lemma size_nd' : size (variances diag (num_coords X')) = num_coords X'.
Proof. by rewrite num_shift. Qed.

Variables (g g' : gp).
Hypothesis hg : gaussian_process smolgp_ops k X diag mean sa = inr g.
Hypothesis hg' : gaussian_process smolgp_ops k X' diag mean sa = inr g'.
Let ni := const_obs_not_integrated co.

Lemma thm_shift_log_probability : gp_log_probability smolgp_ops g' y = gp_log_probability smolgp_ops g y.
Proof.
have [k1 [e1 ->]] := gaussian_process_inr hsa hd ni hg.
have [k2 [e2 ->]] := gaussian_process_inr hsa size_nd' ni hg'.
case nr: (transition_raises false k) => [e|].
  by rewrite !(any_log_probability_raises _ _ _ _ _ _ nr).
by rewrite !any_log_probability // -/m -/o -/o' out_shift.
Qed.

Variables (comp : option string) (lp lp' : xreal) (c c' : gp).
Hypothesis hc : gp_condition smolgp_ops g y None comp = inr (lp, c).
Hypothesis hc' : gp_condition smolgp_ops g' y None comp = inr (lp', c').

Lemma shape2 : exists k1 k2 , [/\ denote k1 = m /\ const_obs k1, denote k2 = m /\ const_obs k2,
    transition_raises false k = None,
    c = @Gp k2 X (fun _ => 0%R) (at_data_mean k X diag y k1 comp)
      (Some (Vector (at_data_var k X diag y k1 comp))) nd (Solver StateSpaceSolver k X nd)
      (Some (states_ k X diag y)) &
    c' = @Gp k2 X' (fun _ => 0%R) (at_data_mean k X' diag y k1 comp)
      (Some (Vector (at_data_var k X' diag y k1 comp))) (variances diag (num_coords X'))
      (Solver StateSpaceSolver k X' (variances diag (num_coords X')))
      (Some (states_ k X' diag y))].
Proof.
have [k1 [k2 [e1 e2 nr n1 ->]]] := cond_shape ni hsa hd hg hc.
have [k1' [k2' [e1' e2' _ _ ->]]] := cond_shape ni hsa size_nd' hg' hc'.
have ? : k1' = k1 by move: e1'; rewrite e1 => -[].
subst k1'; have ? : k2' = k2 by move: e2'; rewrite e2 => -[].
subst k2'; exists k1, k2; split=> //; split; rewrite ?(unique_denote e2) ?(unique_denote e1) //.
  exact: (unique_const_obs e1).
exact: (unique_const_obs e2 (unique_const_obs e1 co)).
Qed.

Lemma thm_shift_condition : lp' = lp /\ g_mean c' = g_mean c /\ g_var c' = g_var c.
Proof.
split.
  have [k1 [e1 eg]] := gaussian_process_inr hsa hd ni hg; move: hc; rewrite eg => h.
  have [k2 [e2 eg']] := gaussian_process_inr hsa size_nd' ni hg'; move: hc'; rewrite eg' => h'.
  have [|_ _ -> _] := any_condition_inr _ h; first by rewrite (unique_integrated e1).
  have [|_ _ -> _] := any_condition_inr _ h'; first by rewrite (unique_integrated e2).
  by rewrite -/m -/o -/o' out_shift.
have [k1 [k2 [[d1 c1] [d2 c2] _ -> ->]]] := shape2.
split; rewrite /=; [|congr (Some (Vector _))].
  rewrite /at_data_mean num_shift; apply: eq_mkseq_in => i hi.
  rewrite times_shift (row_const _ _ (nth (CT 0%R) (coord_list X) i) d1 c1) (ms_shift true).
  reflexivity.
rewrite /at_data_var num_shift; apply: eq_mkseq_in => i hi.
rewrite times_shift (row_const _ _ (nth (CT 0%R) (coord_list X) i) d1 c1) (Ps_shift true).
reflexivity.
Qed.

Lemma thm_shift_predict Xt y' cp rv : exists d p, 
  gp_predict smolgp_ops c (Some Xt) y' false cp rv = inr (existT prediction d p) /\
  gp_predict smolgp_ops c' (Some (shift_coords dt Xt)) y' false cp rv = inr (existT prediction d p).
Proof.
have [k1 [k2 [[d1 c1] [d2 c2] nr -> ->]]] := shape2.
rewrite !any_predict //; eexists; eexists; split; first reflexivity.
have pt i : (i < num_coords Xt)%N -> at_test k X' diag y (shift_coords dt Xt) i = at_test k X diag y Xt i.
  move=> hi; rewrite /at_test times_shift (nth_map 0%R) // times_shift num_shift.
  exact: (point_shift true).
have -> : test_mean k X' diag y k2 (shift_coords dt Xt) cp = test_mean k X diag y k2 Xt cp.
  rewrite /test_mean num_shift; apply: eq_mkseq_in => i hi.
  by rewrite pt //; congr proj_mean; apply: row_const.
have -> : test_var k X' diag y k2 (shift_coords dt Xt) cp = test_var k X diag y k2 Xt cp.
  rewrite /test_var num_shift; apply: eq_mkseq_in => i hi.
  by rewrite pt //; congr proj_var; apply: row_const.
by [].
Qed.
End Shift.
