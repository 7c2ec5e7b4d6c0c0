(** Names at the front end: positive statements, examples and counterexamples. *)
From Coq Require Import Reals String Lra Lia.
From mathcomp Require Import all_ssreflect all_algebra.
From mathcomp.real_closed Require Import mxtens.
From Verif.Prelude Require Import Rstruct Psd Zmod.
From Verif.Spec Require Import Gp Markov Lti WfKernel Cov CovOf LogNormal Data Components.
From Verif.Model Require Import Array Jax Ssm Sequential BaseKernels IntegratedKernels Kernel Integrated
  Frontend SequentialOps Gp.
From Verif.Proofs Require Import SeqExact SeqIdeal SeqMore Lti KernelLti
  Evaluate KernelThms Names Rename UniqueNames Fit FitAny FitThms FitMore FitExample FrontDefined
  FrontProps ParFront Components ComponentThms.
Set Implicit Arguments.
Unset Strict Implicit.
Unset Printing Implicit Defensive.
Import Order.TTheory GRing.Theory Num.Theory.
Local Open Scope R_scope.

Section Any.
Variable ops : solver_kind -> solver_ops.

Lemma gp_init_kernel k X diag noise mean sa mv vv st g :
  gp_init ops k X diag noise mean sa mv vv true st = inr g ->
  assign_unique_kernel_names k = inr (g_kernel g).
Proof.
rewrite /gp_init; case: (assign_unique_kernel_names k) => [//|k'] /=.
case: ifP => // _; case: (match mv with Some v => v | None => _ end) => // mu.
case: (match noise with Some nd => inr nd | None => _ end) => [//|nd] /=.
by case: (choose_solver _ _ _ _ _ _) => [//|s] /= [<-].
Qed.

Lemma gp_kernelE k X diag mean sa g : gaussian_process ops k X diag mean sa = inr g ->
  assign_unique_kernel_names k = inr (g_kernel g).
Proof. exact: gp_init_kernel. Qed.

Lemma names_distinct k X diag mean sa g : names_free k \/ distinct (summand_names k) ->
  gaussian_process ops k X diag mean sa = inr g -> distinct (summand_names (g_kernel g)).
Proof. by move=> h; rewrite /gaussian_process => /gp_init_kernel; apply: unique_names_distinct. Qed.

Lemma names_kept k X diag mean sa g : distinct (summand_names k) ->
  gaussian_process ops k X diag mean sa = inr g -> g_kernel g = k.
Proof.
move=> h; rewrite /gaussian_process => /gp_init_kernel; rewrite unique_distinct; first by case.
by rewrite -summandsE; apply: distinct_uniq.
Qed.

Lemma names_condition g y Xt comp lp c : distinct (summand_names (g_kernel g)) ->
  gp_condition ops g y Xt comp = inr (lp, c) -> g_kernel c = g_kernel g.
Proof.
move=> h; rewrite /gp_condition; case: ifP => // _.
case: so_condition => [//|r] /=; case: (r_vS r) => [[v S]|//].
case: state_arrays => [//|[[[ts i] o] st]] /=.
case: Xt => [Xt|] /=; first by case: so_predict.
case e: gp_init => [//|g'] /= [_ <-].
move: (gp_init_kernel e); rewrite unique_distinct; first by case.
by rewrite -summandsE; apply: distinct_uniq.
Qed.

Lemma names_never_fail k X diag mean sa e : names_ok k ->
  gaussian_process ops k X diag mean sa = inl e ->
  gp_init ops k X diag None mean sa None None false no_states = inl e.
Proof.
move=> /unique_names_ok[k' [ek _]]; rewrite /gaussian_process /gp_init ek /= (unique_integrated ek).
case: ifP => // _.
case: (broadcast _ _) => [//|nd] /=.
by case: (choose_solver _ _ _ _ _ _).
Qed.
End Any.

(** Three summands, two of which have the same name. *)
Definition k_aab : kernel :=
  Sum (SHO 1 1 1 "a") (Sum (Matern52 2 1 "a") (Cosine 1 2 "c")).
Lemma k_aab_free : names_free k_aab.
Proof.
move=> k' /= [<-|[<-|[<-|[]]]]; split=> //= h; split=> //= i [|[|[|[]]]] //.
Qed.
Lemma k_aab_wf : wf_kernel k_aab. Proof. rewrite /=; repeat split; lra. Qed.
Lemma k_aab_const : const_obs k_aab. Proof. by []. Qed.
Lemma k_aab_np : no_product k_aab. Proof. by move=> k' /= [<-|[<-|[<-|[]]]]. Qed.
Lemma k_aab_no_constant : no_constant k_aab. Proof. by []. Qed.
Lemma k_aab_names : names_ok k_aab. Proof. by right; exact: k_aab_np. Qed.
Lemma X_ex_aab : steps_kept k_aab (times X_ex).
Proof. have [[h0 _] h] := X_ex_kept; split=> // i hi; have [h1 _] := h i hi; split=> //. Qed.

Lemma comp_example : exists kern kerns g lp c,
  (forall X1 X2, kernel_evaluate false k_aab X1 X2 = inr (kern X1 X2)) /\
  (forall i X1 X2, (i < size (summands k_aab))%N ->
     kernel_evaluate false (nth (Constant 0 "") (summands k_aab) i) X1 X2 = inr (kerns i X1 X2)) /\
  gaussian_process smolgp_ops k_aab X_ex diag_ex None NoSolver = inr g /\
  gp_condition smolgp_ops g y_ex None None = inr (lp, c) /\
  summand_names (g_kernel c) = [:: "a_1"; "a_2"; "c"]%string.
Proof.
have [kern hk] := kernel_evaluate_fun k_aab_no_constant.
have [g hg] := thm_defined None k_aab_wf X_ex_valid (or_introl erefl) k_aab_names.
have [lp [c hc]] := thm_condition_defined k_aab_wf X_ex_valid hk (or_introl erefl) k_aab_names hg (ltac:(done)).
have [k1 h1] := kernel_evaluate_fun (k := SHO 1 1 1 "a") I.
have [k2 h2] := kernel_evaluate_fun (k := Matern52 2 1 "a") I.
have [k3 h3] := kernel_evaluate_fun (k := Cosine 1 2 "c") I.
exists kern, (fun i => nth k1 [:: k1; k2; k3] i), g, lp, c; split=> //; split.
  by case=> [|[|[|i]]].
do 2!split=> //; have dk := names_distinct (or_introl k_aab_free) hg.
rewrite (names_condition dk hc); move: (gp_kernelE hg).
by case=> <-.
Qed.

(** ** Counterexamples *)
Definition X2 : coords := CArray [:: 0; 1].
Definition one : option farray := Some (Scalar 1).
Lemma X2_valid y : size y = 2%N -> valid_data X2 one y.
Proof.
move=> sy; split=> //; last by case=> [|[|i]] //= _; lra.
by move=> i j /andP[hij hj]; move: i j hij hj; case=> [|[|i]] // [|[|j]] //= _ _; lra.
Qed.

(** A repeated name and a product: KeyError. *)
Lemma key_error_refuted : exists k X diag y, wf_kernel k /\ valid_data X diag y /\
  gaussian_process smolgp_ops k X diag None NoSolver = inl KeyError /\
  exists g, gp_init smolgp_ops k X diag None None NoSolver None None false no_states = inr g.
Proof.
exists (Sum (Sum (Matern32 1 1 "a") (Matern32 2 1 "a")) (Product (Cosine 1 1 "b") (Cosine 2 1 "c"))), X2, one, [:: 1; 2].
split; first by rewrite /=; repeat split; lra.
split; first exact: X2_valid.
by split=> //; eexists.
Qed.

(** A numbered name that is in use, and classes that ignore their name. *)
Lemma clash_refuted : exists k X diag y g, wf_kernel k /\ valid_data X diag y /\
  (forall k', List.In k' (summands k) -> ~ is_product k') /\
  gaussian_process smolgp_ops k X diag None NoSolver = inr g /\
  ~ distinct (summand_names (g_kernel g)).
Proof.
exists (Sum (Sum (Matern32 1 1 "a") (Matern32 2 1 "a")) (Cosine 1 1 "a_1")), X2, one, [:: 1; 2].
eexists; split; first by rewrite /=; repeat split; lra.
split; first exact: X2_valid.
split; first by move=> k' /= [<-|[<-|[<-|[]]]].
split; first reflexivity.
by move=> /= [h _]; apply: h; right; left.
Qed.
Lemma matern_refuted : exists k X diag y g, wf_kernel k /\ valid_data X diag y /\
  (forall k', List.In k' (summands k) -> ~ is_product k') /\
  gaussian_process smolgp_ops k X diag None NoSolver = inr g /\
  ~ distinct (summand_names (g_kernel g)).
Proof.
exists (Sum (Matern 1 1 1) (Matern 1 2 1)), X2, one, [:: 1; 2].
eexists; split; first by rewrite /=; repeat split; lra.
split; first exact: X2_valid.
split; first by move=> k' /= [<-|[<-|[]]].
split; first reflexivity.
by move=> /= [h _]; apply: h; left.
Qed.

(** The component of a product is 0. *)
Lemma product_absent k1 k2 X c : no_product k1 -> ~ List.In c (summand_names k1) ->
  observation_model (Product k1 k2) X (Some c) = 0%R.
Proof. by move=> h1 h2; rewrite /= comp_absent // tens0mx. Qed.

Lemma sum_absent k1 k2 X c : observation_model k1 X c = 0%R -> observation_model k2 X c = 0%R ->
  observation_model (Sum k1 k2) X c = 0%R.
Proof. by move=> h1 h2; rewrite /= h1 h2 row_mx0. Qed.

Definition k_pp : kernel := Sum (Product (Matern32 1 1 "a") (Cosine 1 1 "b"))
                                (Product (Matern52 1 1 "c") (Cosine 2 1 "d")).
Lemma k_pp_row X i : observation_model k_pp X (Some (nth EmptyString (summand_names k_pp) i)) = 0%R.
Proof.
have na s : no_product (Matern32 1 1 s) by move=> k' /= [<-|[]].
have nb s : no_product (Matern52 1 1 s) by move=> k' /= [<-|[]].
have e c : c <> "a"%string -> c <> "c"%string -> observation_model k_pp X (Some c) = 0%R.
  move=> h1 h2; apply: sum_absent; apply: product_absent => //= -[h|[]] //.
    by apply: h1; rewrite h.
  by apply: h2; rewrite h.
by case: i => [|[|i]]; apply: e => //; case: i.
Qed.

(** Data equal to a column of K + D: the posterior mean is a column of K. *)
Lemma gp_mean_col (kern : coord -> coord -> R) xs rs ys (j : 'I_(size xs)) x :
  (data_cov (gram (CT 0) kern xs) (row_of _ rs) \in unitmx)%R ->
  col_of (size xs) ys = col j (data_cov (gram (CT 0) kern xs) (row_of _ rs)) ->
  gp_mean (CT 0) kern xs rs ys x = kern x (nth (CT 0) xs j).
Proof.
rewrite /gp_mean /post_mean; set S := data_cov _ _; move=> u ->.
by rewrite colE -mulmxA mulKmx // -colE !mxE.
Qed.

Lemma product_component_refuted : exists k X diag y kern g lp c,
  wf_kernel k /\ const_obs k /\ distinct (summand_names k) /\ valid_data X diag y /\
  steps_kept k (times X) /\
  (forall X1 X2, kernel_evaluate false k X1 X2 = inr (kern X1 X2)) /\
  gaussian_process smolgp_ops k X diag None NoSolver = inr g /\
  gp_condition smolgp_ops g y None None = inr (lp, c) /\
  g_kernel c = k /\
  (forall n, List.In n (summand_names k) ->
     gp_component_mean c [:: n] = inr (Vector [:: 0; 0], Vector [:: 0; 0])) /\
  g_mean c <> [:: 0; 0].
Proof.
have wf : wf_kernel k_pp by rewrite /=; repeat split; lra.
have co : const_obs k_pp by [].
have nc : no_constant k_pp by [].
have dk : distinct (summand_names k_pp) by split; [case | split].
have nok : names_ok k_pp by left.
have [kern hk] := kernel_evaluate_fun nc.
pose y := [:: kern (CT 0) (CT 0) + 1; kern (CT 1) (CT 0)].
have vd : valid_data X2 one y by apply: X2_valid.
have kept : steps_kept k_pp (times X2) by split=> // i; case: i => [|[|i]].
have [g hg] := thm_defined None wf vd (or_introl erefl) nok.
have [lp [c hc]] := thm_condition_defined wf vd hk (or_introl erefl) nok hg (ltac:(done)).
exists k_pp, X2, one, y, kern, g, lp, c; do 8!split=> //.
have eg := names_kept dk hg.
have ek : g_kernel c = k_pp by rewrite -eg; apply: names_condition hc; rewrite eg.
split=> //; split; last first.
  have [_ _ -> _] := thm_condition wf co vd kept hk (or_introl erefl) hg hc.
  rewrite [coord_list _]/= [map _ _]/= => -[].
  rewrite (@gp_mean_col kern [:: CT 0; CT 1] _ _ ord0).
  - move=> h _; have [_] := kernel_evaluate_inr (hk (CT 0) (CT 0)).
    rewrite h => /esym; rewrite evaluate_sum !evaluate_product evaluate_matern32 evaluate_cosine.
    rewrite evaluate_matern52 ?evaluate_cosine; last lra.
    have -> : alag (CT 0) (CT 0) = 0 by rewrite /alag /= Rminus_0_r Rabs_R0.
    rewrite /cov_matern32 /cov_cosine /cov_matern52 /Rdiv.
    by rewrite !(Ropp_0, Rmult_0_l, Rmult_0_r) ?pow_i ?exp_0 ?cos_0; [toR; lra | lia].
  - apply: pd_unit; apply: psdpdD; first exact: (kernel_gram_psd _ wf co hk).
    by apply: (diag_pd (t := [:: 0; 1] : seq R)) => i hi; apply/RltP; apply: (vd_pos vd).
  - apply/matrixP => i j; rewrite !mxE; case: i => -[|[|i]] hi //=; toR; lra.
have [n1 [k' [hk' _ ec]]] := compE wf (or_intror dk) vd (or_introl erefl) hg hc.
have ek' : k' = k_pp by rewrite -ek ec.
rewrite ec ek' => n hn; rewrite /gp_component_mean [g_states _]/= [g_kernel _]/=.
have e0 x : obs_rows (md (denote k_pp)) k_pp n [::] x = 0%R.
  rewrite -[LHS]/(Frontend.obs_row (md (denote k_pp)) k_pp (Some n) x) obs_rowE.
  by case: hn => [<-|[<-|[]]]; [exact: (k_pp_row x 0) | exact: (k_pp_row x 1)].
rewrite project_inst; congr (inr (_, _)).
- rewrite -[RHS]/(squeeze (mkseq (fun _ => 0%R) 2)); congr squeeze; apply: eq_mkseq => i.
  by rewrite e0 /proj_mean mul0mx mxE.
- rewrite -[RHS]/(squeeze (mkseq (fun _ => 0%R) 2)); congr squeeze; apply: eq_mkseq => i.
  by rewrite e0 /proj_var !mul0mx mxE.
Qed.
