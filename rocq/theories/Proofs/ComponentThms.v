(** User-level statements about components. *)
From Coq Require Import Reals String Lra.
From mathcomp Require Import all_ssreflect all_algebra.
From Verif.Prelude Require Import Rstruct Psd Zmod.
From Verif.Spec Require Import Gp Markov Lti WfKernel LogNormal Data Components.
From Verif.Model Require Import Array Jax Ssm Sequential BaseKernels IntegratedKernels Kernel Integrated
  Frontend SequentialOps Gp.
From Verif.Proofs Require Import SeqExact SeqIdeal Lti KernelLti
  Evaluate KernelThms Names Rename UniqueNames Fit FitAny FitThms Components.
Set Implicit Arguments.
Unset Strict Implicit.
Unset Printing Implicit Defensive.
Import Order.TTheory GRing.Theory Num.Theory.

Lemma dset_absent A (d : dict A) n a : ~ List.In n (map fst d) -> dset d n a = rcons d (n, a).
Proof.
elim: d => [|[n' a'] d IH] //= h; case: (streqP n' n) => [e|_]; first by case: h; left.
by rewrite IH // => h'; apply: h; right.
Qed.

Lemma foldl_dset A B (f : B -> A) (nm : B -> string) (s : seq B) (d : dict A) :
  distinct (map fst d ++ map nm s) ->
  foldl (fun r b => dset r (nm b) (f b)) d s = d ++ [seq (nm b, f b) | b <- s].
Proof.
elim: s d => [|b s IH] d /=; first by rewrite !cats0.
move=> h; rewrite dset_absent; last first.
  by move=> h'; have [_ _ /(_ _ h')] := distinct_cat h; apply; left.
by rewrite IH ?cat_rcons // map_rcons cat_rcons.
Qed.

Lemma nth_unzip1 (A B C : Type) (a0 : A) (c0 : C) (f : C -> A * B) s j : (j < size s)%N ->
  nth a0 (unzip1 (map f s)) j = (f (nth c0 s j)).1.
Proof. by move=> h; rewrite /unzip1 -map_comp (nth_map c0). Qed.
Lemma nth_unzip2 (A B C : Type) (b0 : B) (c0 : C) (f : C -> A * B) s j : (j < size s)%N ->
  nth b0 (unzip2 (map f s)) j = (f (nth c0 s j)).2.
Proof. by move=> h; rewrite /unzip2 -map_comp (nth_map c0). Qed.

Lemma ps_components d (p : pstates d) (f : nat -> farray * farray) n :
  size (summands (ps_kernel p)) = n -> distinct (summand_names (ps_kernel p)) ->
  let name i := nth EmptyString (summand_names (ps_kernel p)) i in
  (forall i, (i < n)%N -> let H := Frontend.obs_row d (ps_kernel p) (Some (name i)) in
     (project_mean p H, project_variance p H) = f i) ->
  (forall i, (i < n)%N -> ps_get_component p [:: name i] = inr (f i)) /\
  ps_get_all_components p = [seq (name i, f i) | i <- iota 0 n].
Proof.
move=> sz dk name h; split=> [i hi|]; first by rewrite -h.
rewrite /ps_get_all_components -summandsE foldl_dset ?cat0s //.
apply: (@eq_from_nth _ (EmptyString, (Scalar 0, Scalar 0))); first by rewrite !size_map sz size_iota.
move=> i; rewrite size_map sz => hi; pose k0 := Constant 0 "".
rewrite (nth_map k0) ?sz // (nth_map 0%N) ?size_iota // nth_iota // add0n.
have e : kname (nth k0 (summands (ps_kernel p)) i) = name i by rewrite /name (nth_map k0) // sz.
by rewrite e -h.
Qed.

Section Front.
Variables (k : kernel) (X : coords) (diag : option farray) (mean : option (coord -> R)).
Variables (sa : solver_arg) (y : seq R) (kern : coord -> coord -> R) (kerns : nat -> coord -> coord -> R) (g : gp).
Hypothesis wf : wf_kernel k.
Hypothesis co : const_obs k.
Hypothesis np : no_product k.
Hypothesis hn : names_free k \/ distinct (summand_names k).
Hypothesis vd : valid_data X diag y.
Hypothesis kept : steps_kept k (times X).
Hypothesis hkern : forall X1 X2, kernel_evaluate false k X1 X2 = inr (kern X1 X2).
Let k0 := Constant 0 "".
Let n := size (summands k).
Hypothesis hkerns : forall i X1 X2, (i < n)%N ->
  kernel_evaluate false (nth k0 (summands k) i) X1 X2 = inr (kerns i X1 X2).
Hypothesis hsa : default_solver sa.
Hypothesis hg : gaussian_process smolgp_ops k X diag mean sa = inr g.
Let N := num_coords X.
Let nd := variances diag N.
Let xs := coord_list X.
Variables (lp : xreal) (c : gp).
Hypothesis hc : gp_condition smolgp_ops g y None None = inr (lp, c).
Let mu i x := comp_mean (CT 0) (kerns i) kern xs nd y x.
Let va i x := comp_var (CT 0) (kerns i) kern xs nd x.
Let name i := nth EmptyString (summand_names (g_kernel c)) i.
Let m := denote k.
Let row k' i x := Frontend.obs_row (md m) k' (Some (nth EmptyString (summand_names k') i)) x.

Section At.
Variables (k' : kernel) (i : nat).
Hypothesis hk' : assign_unique_kernel_names k = inr k'.
Hypothesis dk' : distinct (summand_names k').
Hypothesis hi : (i < n)%N.

Lemma at_mean j : (j < N)%N -> proj_mean (row k' i (nth (CT 0%R) xs j))
   (nth 0%R (c_ms (fit_cond k X diag y true)) j) = mu i (nth (CT 0) xs j).
Proof.
move=> hj; rewrite /proj_mean (fit_condE diag y wf kept).
rewrite (smooth_row_mean (vks wf) y (t_sorted vd) (nd_pos vd) true _ hj).
rewrite -coord_nth //; exact: (row_meanC X diag y wf co np hkern hkerns hk' dk' hi).
Qed.
Lemma at_var j : (j < N)%N -> proj_var (row k' i (nth (CT 0%R) xs j))
   (nth 0%R (c_Ps (fit_cond k X diag y true)) j) = va i (nth (CT 0) xs j).
Proof.
move=> hj; rewrite /proj_var (fit_condE diag y wf kept).
rewrite (smooth_row_var (vks wf) y (t_sorted vd) (nd_pos vd) true _ hj).
rewrite -coord_nth //; exact: (row_varC X diag wf co np hkern hkerns hk' dk' hi).
Qed.

Lemma test_mean x : predict_kept k (times X) (coord_to_sortable x) ->
  proj_mean (row k' i x) (@pr_point _ (to_ssm m) (fit_cond k X diag y true) (coord_to_sortable x)).1 = mu i x.
Proof.
move=> hp; rewrite /proj_mean (@pr_point_ideal m).
- rewrite (fit_condE diag y wf kept) (point_row_mean (vks wf) y (t_sorted vd) (nd_pos vd) (N_pos vd)).
  exact: (row_meanC X diag y wf co np hkern hkerns hk' dk' hi).
- exact: (t_sorted vd).
move=> j hj h1 h2; apply: kernel_noise => //; apply: hp => //; first exact/RleP.
by move=> j' hj'; apply/RltP/h2.
Qed.
Lemma test_var x : predict_kept k (times X) (coord_to_sortable x) ->
  proj_var (row k' i x) (@pr_point _ (to_ssm m) (fit_cond k X diag y true) (coord_to_sortable x)).2 = va i x.
Proof.
move=> hp; rewrite /proj_var (@pr_point_ideal m).
- rewrite (fit_condE diag y wf kept) (point_row_var (vks wf) y (t_sorted vd) (nd_pos vd) (N_pos vd)).
  exact: (row_varC X diag wf co np hkern hkerns hk' dk' hi).
- exact: (t_sorted vd).
move=> j hj h1 h2; apply: kernel_noise => //; apply: hp => //; first exact/RleP.
by move=> j' hj'; apply/RltP/h2.
Qed.

Hypothesis N1 : N <> 1%N.
Lemma project_row : project_at_data (states_ k X diag y) (row k' i)
  = (Vector (map (mu i) xs), Vector (map (va i) xs)).
Proof.
rewrite project_inst -!(mkseq_map (CT 0)) size_coord_list.
by congr (_, _); rewrite squeeze_vec ?size_mkseq //; congr Vector; apply: eq_mkseq_in => j hj;
  [apply: at_mean | apply: at_var].
Qed.
End At.

Lemma comp_size : size (summand_names (g_kernel c)) = n.
Proof.
have [_ [k' [hk' dk' ->]]] := compE wf hn vd hsa hg hc.
by rewrite size_map; apply: size_k'.
Qed.

Lemma thm_component_mean i : (i < n)%N ->
  gp_component_mean c [:: name i] = inr (Vector (map (mu i) xs), Vector (map (va i) xs)).
Proof.
move=> hi; rewrite /name; have [n1 [k' [hk' dk' ->]]] := compE wf hn vd hsa hg hc.
rewrite /gp_component_mean [g_states _]/= [g_kernel _]/=.
by have := project_row hk' dk' hi n1; rewrite /row => <-.
Qed.

Lemma thm_predict_component i y' : (i < n)%N ->
  exists d, gp_predict smolgp_ops c None y' false (Some (name i)) true
  = inr (existT prediction d (PMeanVar (Vector (map (mu i) xs)) (Some (Vector (map (va i) xs))))).
Proof.
move=> hi; rewrite /name; have [n1 [k' [hk' dk' ->]]] := compE wf hn vd hsa hg hc.
exists (md m); rewrite /gp_predict [g_states _]/= /gp_predict_conditioned.
cbv beta iota zeta delta [ebind g_kernel g_solver].
by have := project_row hk' dk' hi n1; rewrite /row => ->.
Qed.

Lemma thm_all_component_means :
  gp_all_component_means c
  = inr [seq (name i, (Vector (map (mu i) xs), Vector (map (va i) xs))) | i <- iota 0 n].
Proof.
rewrite /name; have [n1 [k' [hk' dk' ->]]] := compE wf hn vd hsa hg hc.
rewrite /gp_all_component_means [g_states _]/= [g_kernel _]/= -summandsE; congr inr.
rewrite foldl_dset ?cat0s //; apply: (@eq_from_nth _ (EmptyString, (Scalar 0, Scalar 0))).
  by rewrite !size_map (size_k' hk') size_iota.
move=> i; rewrite size_map (size_k' hk') -/n => hi.
rewrite (nth_map k0) ?(size_k' hk') // (nth_map 0%N) ?size_iota // nth_iota // add0n.
have e : kname (nth k0 (summands k') i) = nth EmptyString (summand_names k') i.
  by rewrite (nth_map k0) // (size_k' hk').
by rewrite e; congr pair; exact: (project_row hk' dk' hi n1).
Qed.
Section Test.
Variable Xt : coords.
Hypothesis hp : forall x, List.In x (coord_list Xt) -> predict_kept k (times X) (coord_to_sortable x).
Let ts := coord_list Xt.

Lemma in_ts j : (j < num_coords Xt)%N -> predict_kept k (times X) (coord_to_sortable (nth (CT 0) ts j)).
Proof. by move=> hj; apply: hp; apply: In_nth; rewrite size_coord_list. Qed.

Lemma thm_predict_component_test i y' : (i < n)%N ->
  exists d, gp_predict smolgp_ops c (Some Xt) y' false (Some (name i)) true
  = inr (existT prediction d (PMeanVar (squeeze (map (mu i) ts)) (Some (squeeze (map (va i) ts))))).
Proof.
move=> hi; rewrite /name; have [n1 [k' [hk' dk' ->]]] := compE wf hn vd hsa hg hc.
eexists; rewrite any_predict ?(no_raise hkern) //.
congr (inr (existT _ _ (PMeanVar (squeeze _) (Some (squeeze _))))).
- rewrite -(mkseq_map (CT 0)) size_coord_list; apply: eq_mkseq_in => j hj.
  rewrite /at_test -coord_nth //; exact: (test_mean hk' dk' hi (in_ts hj)).
- rewrite -(mkseq_map (CT 0)) size_coord_list; apply: eq_mkseq_in => j hj.
  rewrite /at_test -coord_nth //; exact: (test_var hk' dk' hi (in_ts hj)).
Qed.

Lemma thm_predicted_states y' : exists d (p : pstates d),
  gp_predict smolgp_ops c (Some Xt) y' true None true = inr (existT prediction d (PFull p)) /\
  ps_X p = Xt /\ (forall i, (i < n)%N ->
      ps_get_component p [:: name i] = inr (squeeze (map (mu i) ts), squeeze (map (va i) ts))) /\
      ps_get_all_components p
      = [seq (name i, (squeeze (map (mu i) ts), squeeze (map (va i) ts))) | i <- iota 0 n].
Proof.
rewrite /name; have [n1 [k' [hk' dk' ->]]] := compE wf hn vd hsa hg hc.
exists (md m), (PStates Xt (unzip1 (map (@pr_point _ (to_ssm m) (fit_cond k X diag y true)) (times Xt)))
   (unzip2 (map (@pr_point _ (to_ssm m) (fit_cond k X diag y true)) (times Xt))) k').
split.
  rewrite /gp_predict [g_states _]/= /gp_predict_conditioned.
  rewrite [g_solver _]/= [sv_kind _]/= seq_predict_states ?(no_raise hkern) //.
split=> //.
move: (size_k' hk') dk'; pose p := PStates Xt (unzip1 (map (@pr_point _ (to_ssm m) (fit_cond k X diag y true)) (times Xt)))
   (unzip2 (map (@pr_point _ (to_ssm m) (fit_cond k X diag y true)) (times Xt))) k'.
move=> sz dk; apply: (@ps_components (md m) p (fun i => (squeeze (map (mu i) ts), squeeze (map (va i) ts)))) => //.
move=> i hi; congr (squeeze _, squeeze _);
  rewrite -(mkseq_map (CT 0)); apply: eq_mkseq_in => j; rewrite size_coord_list => hj.
- rewrite (nth_unzip1 _ (0%R : R) _ hj) -coord_nth //; exact: (test_mean hk' dk hi (in_ts hj)).
- rewrite (nth_unzip2 _ (0%R : R) _ hj) -coord_nth //; exact: (test_var hk' dk hi (in_ts hj)).
Qed.
End Test.

(** The component means add up to the total mean. *)
Lemma thm_add_at_data j : (j < N)%N ->
  nth 0%R (g_mean c) j = (\sum_(i < n) nth 0 (map (mu i) xs) j)%R.
Proof.
move=> hj; have [_ _ -> _] := thm_condition wf co vd kept hkern hsa hg hc.
rewrite (nth_map (CT 0)) ?size_coord_list // (components_add X diag y hkern hkerns).
by apply: eq_bigr => i _; rewrite (nth_map (CT 0)) ?size_coord_list.
Qed.

Lemma thm_add x : gp_mean (CT 0) kern xs nd y x = (\sum_(i < n) mu i x)%R.
Proof. exact: (components_add X diag y hkern hkerns). Qed.
End Front.
