(** Change of units, reversal of time, the algebra of kernel expressions. *)
From Coq Require Import Reals String Lra.
From mathcomp Require Import all_ssreflect all_algebra.
From Verif.Prelude Require Import Rstruct Psd.
From Verif.Spec Require Import Gp Lti WfKernel Cov CovOf LogNormal Data Transform.
From Verif.Model Require Import Array Jax Ssm Sequential BaseKernels Kernel Integrated Frontend
  SequentialOps Gp.
From Verif.Proofs Require Import GpExt Lti KernelProps KernelLti Evaluate KernelThms
  Names Rename Fit FitAny FitThms FitMore FrontThms FitExample FitRefute IntCondThms Border DenseMore TransferThms.
Set Implicit Arguments.
Unset Strict Implicit.
Unset Printing Implicit Defensive.
Import Order.TTheory GRing.Theory Num.Theory.
Local Open Scope R_scope.

(** Units of the data *)
Section Amplitude.
Variables (k k' : kernel) (X : coords) (d y : seq R) (c : R) (kern kern' : coord -> coord -> R) (g g' : gp).
Hypothesis c0 : c <> 0.
Hypothesis kk : forall X1 X2, kern' X1 X2 = c ^ 2 * kern X1 X2.
Hypothesis sd : size d = num_coords X.
Let d' := [seq c ^ 2 * r | r <- d]. Let y' := [seq c * v | v <- y].
Hypothesis h : gp_of k X (Some (Vector d)) y kern g.
Hypothesis h' : gp_of k' X (Some (Vector d')) y' kern' g'.
Let xs := coord_list X.
Let sy : size y = size xs. Proof. by rewrite size_coord_list; case: h => _ _ /vd_y. Qed.
Let sd' : size d = size xs. Proof. by rewrite size_coord_list. Qed.
Let vE : variances (Some (Vector d)) (num_coords X) = d. Proof. exact: varsE. Qed.
Let vE' : variances (Some (Vector d')) (num_coords X) = d'. Proof. by apply: varsE; rewrite size_map. Qed.
Let dp : 0 < gp_det (CT 0) kern xs d. Proof. by have := of_det h; rewrite vE. Qed.

Lemma amp_log_probability : exists l, gp_log_probability smolgp_ops g y = inr (Fin l) /\
  gp_log_probability smolgp_ops g' y' = inr (Fin (l - INR (num_coords X) * ln (Rabs c))).
Proof.
eexists; split; first exact: (of_log h).
by rewrite (of_log h') vE vE' (log_normal_units c0 kk sd' sy dp) size_coord_list.
Qed.
Lemma amp_condition lp co lp' co' :
  gp_condition smolgp_ops g y None None = inr (lp, co) ->
  gp_condition smolgp_ops g' y' None None = inr (lp', co') ->
  g_mean co' = [seq c * m | m <- g_mean co] /\
  (exists va, g_var co = Some (Vector va) /\ g_var co' = Some (Vector [seq c ^ 2 * v | v <- va])) /\
  forall Xt, tests_kept k X Xt -> tests_kept k' X Xt ->
    exists mu va, predicts co Xt mu va /\ predicts co' Xt [seq c * m | m <- mu] [seq c ^ 2 * v | v <- va].
Proof.
have em x : gp_mean (CT 0) kern' xs d' y' x = c * gp_mean (CT 0) kern xs d y x by exact: mean_units.
have ev x : gp_var (CT 0) kern' xs d' x = c ^ 2 * gp_var (CT 0) kern xs d x by exact: var_units.
move=> /(of_cond h) [_ -> -> hp] /(of_cond h') [_ -> -> hp']; rewrite vE in hp *; rewrite vE' in hp' *.
split; first by rewrite -map_comp; apply: eq_map => x; exact: em.
split; first by eexists; split; first reflexivity; rewrite -map_comp; congr (Some (Vector _)); apply: eq_map => x; exact: ev.
move=> Xt kt kt'; do 2!eexists; split; first exact: hp.
by rewrite -!map_comp -(eq_map em) -(eq_map ev); exact: hp'.
Qed.
End Amplitude.

Lemma covariance_amplify c k r : documented k -> covariance (amplify c k) r = c ^ 2 * covariance k r.
Proof.
elim: k => //=; rewrite /cov_constant /cov_exp /cov_matern32 /cov_matern52 /cov_cosine /cov_sho_critical
  /cov_sho_under /cov_sho_over.
- by move=> *; ring.
- move=> w q s _ _; case: Req_EM_T => _; first by ring.
  by case: Rlt_dec => _; rewrite /Rdiv; ring.
- by move=> *; ring.
- by move=> *; ring.
- by move=> *; rewrite /Rdiv; ring.
- by move=> *; ring.
- by move=> a k IH _ /IH ->; ring.
- by move=> k1 IH1 k2 IH2 [/IH1 -> /IH2 ->]; ring.
- by move=> k1 IH1 k2 IH2 [/IH1 -> _]; ring.
Qed.
Lemma amplify_documented c k : documented k -> documented (amplify c k).
Proof. by elim: k => //= k1 IH1 k2 IH2 [/IH1 h1 h2]; split=> //; apply: IH2. Qed.
Lemma amplify_wf c k : c <> 0 -> wf_kernel k -> documented k -> wf_kernel (amplify c k).
Proof.
move=> c0; have m s : s <> 0 -> c * s <> 0 by move=> s0; apply: Rmult_integral_contrapositive.
elim: k => //=.
- by move=> s _ h _; exact: m.
- by move=> w q s _ [h1 [h2 h3]] _; do 2!split=> //; exact: m.
- by move=> l s _ [h1 h2] _; split=> //; exact: m.
- by move=> l s _ [h1 h2] _; split=> //; exact: m.
- by move=> l s _ [h1 h2] _; split=> //; exact: m.
- by move=> l s _ [h1 h2] _; split=> //; exact: m.
- by move=> a k IH _ [h1 /IH h2] h3; split=> //; exact: h2.
- by move=> k1 IH1 k2 IH2 [/IH1 h1 /IH2 h2] [h3 h4]; split; [exact: h1|exact: h2].
- by move=> k1 IH1 k2 IH2 [/IH1 h1 w2] [h3 h4]; split; [exact: h1|].
Qed.
Lemma amplify_kern c k kern kern' : c <> 0 -> wf_kernel k -> documented k ->
  (forall X1 X2, kernel_evaluate false k X1 X2 = inr (kern X1 X2)) ->
  (forall X1 X2, kernel_evaluate false (amplify c k) X1 X2 = inr (kern' X1 X2)) ->
  forall X1 X2, kern' X1 X2 = c ^ 2 * kern X1 X2.
Proof.
move=> c0 wf dk hk hk' X1 X2.
rewrite (kernel_evaluate_covariance wf dk (hk X1 X2)).
rewrite (kernel_evaluate_covariance (amplify_wf c0 wf dk) (amplify_documented c dk) (hk' X1 X2)).
exact: covariance_amplify.
Qed.

(** A map of the coordinates that preserves the covariance *)
Section Coordinates.
Variables (k k' : kernel) (t d y : seq R) (f : R -> R) (kern kern' : coord -> coord -> R) (g g' : gp).
Hypothesis kk : forall u v, kern' (CT (f u)) (CT (f v)) = kern (CT u) (CT v).
Variable idx : seq nat.
Hypothesis pidx : perm_eq idx (iota 0 (size t)).
Hypothesis sd : size d = size t.
Let t' := [seq nth 0 (map f t) i | i <- idx].
Let d' := [seq nth 0 d i | i <- idx]. Let y' := [seq nth 0 y i | i <- idx].
Hypothesis h : gp_of k (CArray t) (Some (Vector d)) y kern g.
Hypothesis h' : gp_of k' (CArray t') (Some (Vector d')) y' kern' g'.
Let F (x : coord) := CT (f (coord_to_sortable x)).
Let kx x1 x2 := kern (CT (coord_to_sortable x1)) (CT (coord_to_sortable x2)).
Let xs := [seq CT u | u <- t]. Let xs' := [seq CT u | u <- t'].
Let vE : variances (Some (Vector d)) (num_coords (CArray t)) = d. Proof. exact: varsE. Qed.
Let sz : size idx = size t. Proof. by rewrite (perm_size pidx) size_iota. Qed.
Let vE' : variances (Some (Vector d')) (num_coords (CArray t')) = d'.
Proof. by apply: varsE; rewrite /num_coords /= !size_map. Qed.
Let dp : gp_det (CT 0) kern xs d <> 0.
Proof. by apply: Rgt_not_eq; have := of_det h; rewrite vE. Qed.

Let xs'E : xs' = [seq nth (CT 0) [seq F x | x <- xs] i | i <- idx].
Proof.
rewrite /xs' /t' -map_comp; apply/eq_in_map => i; rewrite (perm_mem pidx) mem_iota add0n => /andP[_ hi] /=.
by rewrite -map_comp !(nth_map 0).
Qed.
Let kF x1 x2 : kx x1 x2 = kern' (F x1) (F x2). Proof. exact: esym (kk _ _). Qed.
Let pF : perm_eq idx (iota 0 (size [seq F x | x <- xs])). Proof. by rewrite !size_map. Qed.
Let kxE u v : kx (CT u) (CT v) = kern (CT u) (CT v). Proof. by []. Qed.
Let nthxs i : (i < size xs)%N -> nth (CT 0) xs i = CT (nth 0 t i).
Proof. by rewrite size_map => hi; rewrite (nth_map 0). Qed.
Let detF : gp_det (CT 0) kern' [seq F x | x <- xs] d = gp_det (CT 0) kern xs d.
Proof.
rewrite (gp_det_map (CT 0) (CT 0) kF) !gp_detE; apply: gpd_ext => i j hi hj.
by rewrite !nthxs.
Qed.
Let dpF : gp_det (CT 0) kern' [seq F x | x <- xs] d <> 0. Proof. by rewrite detF. Qed.

Lemma co_log_normal : log_normal (CT 0) kern' xs' d' y' = log_normal (CT 0) kern xs d y.
Proof.
rewrite xs'E (log_normal_perm _ pF dpF) /log_normal detF !size_map (gp_quad_map (CT 0) (CT 0) kF).
congr (_ * (_ + _ + _)); rewrite !gp_quadE; apply: gpq_ext => i j hi hj; by rewrite !nthxs.
Qed.
Lemma co_mean u : gp_mean (CT 0) kern' xs' d' y' (CT (f u)) = gp_mean (CT 0) kern xs d y (CT u).
Proof.
rewrite xs'E (gp_mean_perm _ pF dpF) -[CT (f u)]/(F (CT u)) (gp_mean_map (CT 0) (CT 0) kF).
by rewrite !gp_meanE; apply: gpm_ext => [i j hi hj|j hj]; rewrite !nthxs.
Qed.
Lemma co_var u : gp_var (CT 0) kern' xs' d' (CT (f u)) = gp_var (CT 0) kern xs d (CT u).
Proof.
rewrite xs'E (gp_var_perm pF dpF) -[CT (f u)]/(F (CT u)) (gp_var_map (CT 0) (CT 0) kF).
by rewrite !gp_varE; apply: gpv_ext => [i j hi hj||j hj]; rewrite ?nthxs.
Qed.

Lemma co_list (G G0 : coord -> R) : (forall u, G (CT (f u)) = G0 (CT u)) ->
  [seq G x | x <- xs'] = [seq nth 0 [seq G0 x | x <- xs] i | i <- idx].
Proof.
move=> e; rewrite /xs' /t' /xs -!map_comp; apply/eq_in_map => i; rewrite (perm_mem pidx) mem_iota add0n => /andP[_ hi] /=.
by rewrite (nth_map 0) // (nth_map 0) //; exact: e.
Qed.
Lemma co_list2 (G G0 : coord -> R) s : (forall u, G (CT (f u)) = G0 (CT u)) ->
  [seq G x | x <- coord_list (CArray [seq f u | u <- s])] = [seq G0 x | x <- coord_list (CArray s)].
Proof. by move=> e; rewrite /= -!map_comp; apply: eq_map. Qed.

Lemma co_log_probability : gp_log_probability smolgp_ops g' y' = gp_log_probability smolgp_ops g y.
Proof. by rewrite (of_log h) (of_log h') vE vE' co_log_normal. Qed.
Lemma co_condition lp co lp' co' :
  gp_condition smolgp_ops g y None None = inr (lp, co) ->
  gp_condition smolgp_ops g' y' None None = inr (lp', co') ->
  [/\ lp' = lp, g_mean co' = [seq nth 0 (g_mean co) i | i <- idx],
    (exists va, g_var co = Some (Vector va) /\ g_var co' = Some (Vector [seq nth 0 va i | i <- idx])) &
    forall s, tests_kept k (CArray t) (CArray s) -> tests_kept k' (CArray t') (CArray [seq f u | u <- s]) ->
    exists mu va, predicts co (CArray s) mu va /\ predicts co' (CArray [seq f u | u <- s]) mu va].
Proof.
move=> /(of_cond h) [-> -> -> hp] /(of_cond h') [-> -> -> hp']; rewrite vE in hp *; rewrite vE' in hp' *.
split; first by rewrite co_log_normal.
- exact: (co_list co_mean).
- by eexists; split; first reflexivity; congr (Some (Vector _)); exact: (co_list co_var).
- move=> s0 kt kt'; do 2!eexists; split; first exact: hp kt.
  by rewrite -(co_list2 s0 co_mean) -(co_list2 s0 co_var); exact: hp'.
Qed.
End Coordinates.

(** Time running backwards *)
Lemma rev_idx (T : Type) (z : T) (s : seq T) : [seq nth z s i | i <- rev (iota 0 (size s))] = rev s.
Proof. by rewrite map_rev map_nth_iota0 // take_size. Qed.
Lemma rev_perm n : perm_eq (rev (iota 0 n)) (iota 0 n).
Proof. by rewrite perm_rev. Qed.

Lemma evaluate_mirror k a u v : wf_kernel k -> const_obs k ->
  evaluate (denote k) (CT (a - u)) (CT (a - v)) = evaluate (denote k) (CT u) (CT v).
Proof.
move=> wf co; rewrite [RHS]evaluate_sym //.
have [G [B [hA _ _ _ _]]] := kernel_lti wf.
have H X Y := const_obsP X Y co.
rewrite /evaluate !hA (H (CT (a - u)) (CT v)) (H (CT (a - v)) (CT u)) /lag /=.
have -> : a - v - (a - u) = u - v by lra.
have -> : a - u - (a - v) = v - u by lra.
have -> : Rltb (a - u) (a - v) = Rltb v u.
  by apply/RltbP/RltbP; lra.
by [].
Qed.

Section Mirror.
Variables (k : kernel) (t d y : seq R) (a : R) (kern : coord -> coord -> R) (g g' : gp).
Hypothesis sd : size d = size t.
Hypothesis h : gp_of k (CArray t) (Some (Vector d)) y kern g.
Hypothesis h' : gp_of k (CArray (mirror a t)) (Some (Vector (rev d))) (rev y) kern g'.
Let f u := a - u.
Let kk u v : kern (CT (f u)) (CT (f v)) = kern (CT u) (CT v).
Proof.
case: h => wf co _ _ hk _.
have [_ ->] := kernel_evaluate_inr (hk (CT (f u)) (CT (f v))).
have [_ ->] := kernel_evaluate_inr (hk (CT u) (CT v)).
exact: evaluate_mirror.
Qed.
Let idx := rev (iota 0 (size t)).
Let tE : mirror a t = [seq nth 0 (map f t) i | i <- idx].
Proof. by rewrite /idx -(size_map f t) rev_idx. Qed.
Let dE : rev d = [seq nth 0 d i | i <- idx]. Proof. by rewrite /idx -sd rev_idx. Qed.
Let sy : size y = size t. Proof. by case: h => _ _ /vd_y. Qed.
Let yE : rev y = [seq nth 0 y i | i <- idx]. Proof. by rewrite /idx -sy rev_idx. Qed.
Let h2 : gp_of k (CArray [seq nth 0 (map f t) i | i <- idx]) (Some (Vector [seq nth 0 d i | i <- idx]))
  [seq nth 0 y i | i <- idx] kern g'.
Proof. by rewrite -tE -dE -yE. Qed.
Lemma mirror_log_probability : gp_log_probability smolgp_ops g' (rev y) = gp_log_probability smolgp_ops g y.
Proof. by rewrite yE; apply: (co_log_probability kk (rev_perm _) sd h h2). Qed.
Lemma mirror_condition lp c lp' c' :
  gp_condition smolgp_ops g y None None = inr (lp, c) ->
  gp_condition smolgp_ops g' (rev y) None None = inr (lp', c') ->
  [/\ lp' = lp, g_mean c' = rev (g_mean c),
    (exists va, g_var c = Some (Vector va) /\ g_var c' = Some (Vector (rev va))) &
    forall s, tests_kept k (CArray t) (CArray s) -> tests_kept k (CArray (mirror a t)) (CArray [seq a - u | u <- s]) ->
    exists mu va, predicts c (CArray s) mu va /\ predicts c' (CArray [seq a - u | u <- s]) mu va].
Proof.
move=> hc; rewrite yE => hc'.
have [e1 e2 [va [e3 e4]] hp] := co_condition kk (rev_perm _) sd h h2 hc hc'.
have [_ em ev _] := of_cond h hc.
split=> //.
- by rewrite e2 /idx -{1}(rev_idx 0) em !size_map.
- exists va; split=> //; rewrite e4; congr (Some (Vector _)).
  have -> : size t = size va by move: e3; rewrite ev => -[<-]; rewrite !size_map.
  by rewrite rev_idx.
- by move=> s kt kt'; apply: hp => //; rewrite -tE.
Qed.
End Mirror.

(** Units of time *)
Lemma covariance_dilate a k r : 0 < a -> wf_kernel k -> documented k ->
  covariance (dilate a k) (a * r) = covariance k r.
Proof.
move=> a0; elim: k => //=; rewrite /cov_constant /cov_exp /cov_matern32 /cov_matern52 /cov_cosine /cov_sho_critical
  /cov_sho_under /cov_sho_over.
- move=> w q s _ [w0 [q0 s0]] _.
  have e : w / a * (a * r) = w * r by field; lra.
  have e1 : - (w / a) * (a * r) = - w * r by field; lra.
  have e2 : eta q * (w / a) * (a * r) = eta q * w * r by field; lra.
  by rewrite !e !e1 !e2.
- move=> l s _ [l0 s0] _; have -> // : - (a * r) / (a * l) = - r / l by field; lra.
- move=> l s _ [l0 s0] _.
  have e : sqrt 3 / (a * l) * (a * r) = sqrt 3 / l * r by field; lra.
  have e' : - (sqrt 3 / (a * l)) * (a * r) = - (sqrt 3 / l) * r by field; lra.
  by rewrite e e'.
- move=> l s _ [l0 s0] _.
  have e : sqrt 5 / (a * l) * (a * r) = sqrt 5 / l * r by field; lra.
  have e' : - (sqrt 5 / (a * l)) * (a * r) = - (sqrt 5 / l) * r by field; lra.
  have e2 : (sqrt 5 / (a * l)) ^ 2 * (a * r) ^ 2 / 3 = (sqrt 5 / l) ^ 2 * r ^ 2 / 3 by field; lra.
  by rewrite e e' e2.
- move=> l s _ [l0 s0] _; have -> // : - 2 * PI * (a * r) / (a * l) = - 2 * PI * r / l by field; lra.
- by move=> b k IH _ [b0 w] dk; rewrite IH.
- by move=> k1 IH1 k2 IH2 [w1 w2] [d1 d2]; rewrite IH1 // IH2.
- by move=> k1 IH1 k2 IH2 [w1 w2] [d1 d2]; rewrite IH1 // IH2.
Qed.
Lemma dilate_documented a k : documented k -> documented (dilate a k).
Proof. by elim: k => //= k1 IH1 k2 IH2 [/IH1 h1 /IH2 h2]. Qed.

Section Dilate.
Variables (k : kernel) (t d y : seq R) (a : R) (kern kern' : coord -> coord -> R) (g g' : gp).
Hypothesis a0 : 0 < a.
Hypothesis dk : documented k.
Hypothesis sd : size d = size t.
Hypothesis h : gp_of k (CArray t) (Some (Vector d)) y kern g.
Hypothesis h' : gp_of (dilate a k) (CArray [seq a * u | u <- t]) (Some (Vector d)) y kern' g'.
Let f u := a * u.
Let kk u v : kern' (CT (f u)) (CT (f v)) = kern (CT u) (CT v).
Proof.
case: h => wf _ _ _ hk _; case: h' => wf' _ _ _ hk' _.
rewrite (kernel_evaluate_covariance wf dk (hk _ _)) (kernel_evaluate_covariance wf' (dilate_documented a dk) (hk' _ _)) /=.
rewrite -(covariance_dilate _ a0 wf dk); congr covariance; rewrite /f -Rmult_minus_distr_l Rabs_mult Rabs_pos_eq //; lra.
Qed.
Let idx := iota 0 (size t).
Let tE : [seq a * u | u <- t] = [seq nth 0 (map f t) i | i <- idx].
Proof. by rewrite /idx -(size_map f t) map_nth_iota0 // take_size. Qed.
Let dE : d = [seq nth 0 d i | i <- idx]. Proof. by rewrite /idx -sd map_nth_iota0 // take_size. Qed.
Let sy : size y = size t. Proof. by case: h => _ _ /vd_y. Qed.
Let yE : y = [seq nth 0 y i | i <- idx]. Proof. by rewrite /idx -sy map_nth_iota0 // take_size. Qed.
Let h2 : gp_of (dilate a k) (CArray [seq nth 0 (map f t) i | i <- idx]) (Some (Vector [seq nth 0 d i | i <- idx]))
  [seq nth 0 y i | i <- idx] kern' g'.
Proof. by rewrite -tE -dE -yE. Qed.
Lemma dilate_log_probability : gp_log_probability smolgp_ops g' y = gp_log_probability smolgp_ops g y.
Proof. by have := co_log_probability kk (perm_refl _) sd h h2; rewrite -yE. Qed.
Lemma dilate_condition lp c lp' c' :
  gp_condition smolgp_ops g y None None = inr (lp, c) ->
  gp_condition smolgp_ops g' y None None = inr (lp', c') ->
  [/\ lp' = lp, g_mean c' = g_mean c, g_var c' = g_var c &
    forall s, tests_kept k (CArray t) (CArray s) ->
      tests_kept (dilate a k) (CArray [seq a * u | u <- t]) (CArray [seq a * u | u <- s]) ->
    exists mu va, predicts c (CArray s) mu va /\ predicts c' (CArray [seq a * u | u <- s]) mu va].
Proof.
move=> hc hc'; have hc2 : gp_condition smolgp_ops g' [seq nth 0 y i | i <- idx] None None = inr (lp', c') by rewrite -yE.
have [e1 e2 [va [e3 e4]] hp] := co_condition kk (perm_refl _) sd h h2 hc hc2.
have [_ em ev _] := of_cond h hc.
split=> //.
- rewrite e2 /idx; have -> : size t = size (g_mean c) by rewrite em !size_map.
  by rewrite map_nth_iota0 // take_size.
- rewrite e4 e3; congr (Some (Vector _)).
  have -> : size t = size va by move: e3; rewrite ev => -[<-]; rewrite !size_map.
  by rewrite map_nth_iota0 // take_size.
- by move=> s kt kt'; apply: hp => //; rewrite -tE.
Qed.
End Dilate.

(** The algebra of + and * *)
Lemma raises_attribute k e : transition_raises false k = Some e -> e = AttributeError.
Proof.
elim: k => //=; try (by move=> *; congruence).
- move=> k1 IH1 k2 IH2; case e1: (transition_raises false k1) => [x|]; last exact: IH2.
  by move=> hx; apply: IH1; rewrite e1 hx.
- move=> k1 IH1 k2 IH2; case e1: (transition_raises false k1) => [x|]; last exact: IH2.
  by move=> hx; apply: IH1; rewrite e1 hx.
Qed.
Definition ev (k : kernel) X1 X2 := kernel_evaluate false k X1 X2.
Lemma evE k X1 X2 : ev k X1 X2 = if transition_raises false k is Some _ then inl AttributeError
  else inr (evaluate (denote k) X1 X2).
Proof.
rewrite /ev; case e : (transition_raises false k) => [x|]; last by rewrite kernel_evaluateE.
by rewrite (kernel_evaluate_err _ _ e) (raises_attribute e).
Qed.
Lemma kernel_algebra k1 k2 k3 X1 X2 :
  ev (kernel_add k1 k2) X1 X2 = ev (kernel_add k2 k1) X1 X2 /\
  ev (kernel_mul k1 k2) X1 X2 = ev (kernel_mul k2 k1) X1 X2 /\
  ev (kernel_add (kernel_add k1 k2) k3) X1 X2 = ev (kernel_add k1 (kernel_add k2 k3)) X1 X2 /\
  ev (kernel_mul (kernel_mul k1 k2) k3) X1 X2 = ev (kernel_mul k1 (kernel_mul k2 k3)) X1 X2 /\
  ev (kernel_mul k1 (kernel_add k2 k3)) X1 X2 = ev (kernel_add (kernel_mul k1 k2) (kernel_mul k1 k3)) X1 X2.
Proof.
rewrite !evE /=.
case: (transition_raises false k1) => [e1|]; case: (transition_raises false k2) => [e2|];
  case: (transition_raises false k3) => [e3|] //=;
  rewrite ?(evaluate_sum, evaluate_product); repeat split; try by []; congr inr; toR; ring.
Qed.
