(** Relations between GPs with different data or kernels. *)
From Coq Require Import Reals String Lra.
From mathcomp Require Import all_ssreflect all_algebra.
From Verif.Prelude Require Import Rstruct Psd.
From Verif.Spec Require Import Gp Lti WfKernel Cov CovOf LogNormal Data Transform.
From Verif.Model Require Import Array Jax Ssm Sequential BaseKernels Kernel Integrated Frontend
  SequentialOps Gp.
From Verif.Proofs Require Import GpExt Lti KernelProps KernelLti Evaluate KernelThms
  Names Rename Fit FitAny FitThms FitMore FrontThms FitExample FitRefute IntCondThms Border DenseMore.
Set Implicit Arguments.
Unset Strict Implicit.
Unset Printing Implicit Defensive.
Import Order.TTheory GRing.Theory Num.Theory.
Local Open Scope R_scope.

Section Of.
Variables (k : kernel) (X : coords) (diag : option farray) (y : seq R) (kern : coord -> coord -> R) (g : gp).
Hypothesis h : gp_of k X diag y kern g.
Let N := num_coords X. Let xs := coord_list X. Let d := variances diag N.

Lemma of_log : gp_log_probability smolgp_ops g y = inr (Fin (log_normal (CT 0) kern xs d y)).
Proof.
case: h => wf co vd kept hk [mean [sa [hs hg]]]; exact: (thm_log_probability wf co vd kept hk hs hg).
Qed.
Lemma of_sym x x' : kern x x' = kern x' x.
Proof.
case: h => wf co vd kept hk _; have := kernel_evaluate_sym false x x' wf co; rewrite !hk; by case.
Qed.
Lemma of_psd l : psdmx (gram (CT 0) kern l).
Proof. case: h => wf co vd kept hk _; exact: kernel_gram_psd wf co hk. Qed.
Lemma of_det : 0 < gp_det (CT 0) kern xs d.
Proof.
case: h => wf co vd kept hk _; rewrite -(fit_det wf co vd kept hk).
apply/RltP; apply: prodr_gt0 => i _; apply/RltP; exact: (fit_S_pos wf vd kept (ltn_ord i)).
Qed.
Lemma of_var x : 0 <= gp_var (CT 0) kern xs d x.
Proof. by case: h => wf co vd kept hk _; have [] := dense_var wf co vd hk x. Qed.
Lemma of_size : size xs = N. Proof. exact: size_coord_list. Qed.
Lemma of_pos i : (i < size xs)%N -> 0 < nth 0 d i.
Proof. rewrite of_size; case: h => _ _ vd _ _ _; exact: (vd_pos vd). Qed.
Lemma of_cond lp c : gp_condition smolgp_ops g y None None = inr (lp, c) ->
  [/\ lp = Fin (log_normal (CT 0) kern xs d y),
    g_mean c = [seq gp_mean (CT 0) kern xs d y x | x <- xs],
    g_var c = Some (Vector [seq gp_var (CT 0) kern xs d x | x <- xs]) &
    forall Xt, tests_kept k X Xt -> predicts c Xt [seq gp_mean (CT 0) kern xs d y x | x <- coord_list Xt]
      [seq gp_var (CT 0) kern xs d x | x <- coord_list Xt]].
Proof.
case: h => wf co vd kept hk [mean [sa [hs hg]]] hc.
have [-> _ -> ->] := thm_condition wf co vd kept hk hs hg hc.
split=> // Xt ht y'; exact: (thm_predict wf co vd kept hk hs hg hc y' ht).
Qed.
End Of.

(** Equal covariance functions *)
Section Same.
Variables (k k' : kernel) (X : coords) (diag : option farray) (y : seq R) (kern kern' : coord -> coord -> R) (g g' : gp).
Hypothesis h : gp_of k X diag y kern g.
Hypothesis h' : gp_of k' X diag y kern' g'.
Hypothesis kk : forall X1 X2, kern' X1 X2 = kern X1 X2.
Let xs := coord_list X. Let d := variances diag (num_coords X).
Lemma same_mean x : gp_mean (CT 0) kern' xs d y x = gp_mean (CT 0) kern xs d y x.
Proof. by rewrite !gp_meanE; apply: gpm_ext. Qed.
Lemma same_var x : gp_var (CT 0) kern' xs d x = gp_var (CT 0) kern xs d x.
Proof. by rewrite !gp_varE; apply: gpv_ext. Qed.
Lemma same_log_normal : log_normal (CT 0) kern' xs d y = log_normal (CT 0) kern xs d y.
Proof.
rewrite /log_normal; congr (_ * (_ + ln _ + _)).
  by rewrite !gp_quadE; apply: gpq_ext.
by rewrite !gp_detE; apply: gpd_ext.
Qed.
Lemma same_log_probability : gp_log_probability smolgp_ops g' y = gp_log_probability smolgp_ops g y.
Proof. by rewrite (of_log h) (of_log h') same_log_normal. Qed.
Lemma same_condition lp c lp' c' :
  gp_condition smolgp_ops g y None None = inr (lp, c) ->
  gp_condition smolgp_ops g' y None None = inr (lp', c') ->
  [/\ lp' = lp, g_mean c' = g_mean c, g_var c' = g_var c &
   forall Xt, tests_kept k X Xt -> tests_kept k' X Xt ->
     exists mu va, predicts c Xt mu va /\ predicts c' Xt mu va].
Proof.
move=> /(of_cond h) [-> -> -> hp] /(of_cond h') [-> -> -> hp'].
split; rewrite ?same_log_normal //.
- by apply: eq_map => x; exact: same_mean.
- by congr (Some (Vector _)); apply: eq_map => x; exact: same_var.
- move=> Xt kt kt'; do 2!eexists; split; first exact: hp.
  by rewrite -(eq_map same_mean) -(eq_map same_var); exact: hp'.
Qed.
End Same.

(** One datum removed *)
Section Without.
Variables (k : kernel) (t d y : seq R) (p : nat) (kern : coord -> coord -> R) (g g' : gp).
Hypothesis hp : (p < size t)%N.
Hypothesis sd : size d = size t.
Hypothesis h : gp_of k (CArray t) (Some (Vector d)) y kern g.
Hypothesis h' : gp_of k (CArray (without p t)) (Some (Vector (without p d))) (without p y) kern g'.
Let xs := [seq CT u | u <- t].
Lemma wo_y : size y = size t. Proof. by case: h => _ _ /vd_y. Qed.
Lemma wo_map (T S : Type) (f : T -> S) s : without p (map f s) = map f (without p s).
Proof. by rewrite /without map_cat map_take map_drop. Qed.
Lemma wo_size (s : seq R) : size s = size t -> size (without p s) = size (without p t).
Proof. by move=> e; rewrite !size_cat !size_take !size_drop e. Qed.
Lemma wo_vars : variances (Some (Vector (without p d))) (size (without p t)) = without p d.
Proof. by rewrite varsE // wo_size. Qed.
Lemma wo_var x : 0 <= gp_var (CT 0) kern (without p xs) (without p d) x.
Proof. by rewrite /xs wo_map; have := of_var h' x; rewrite /num_coords [times _]/= wo_vars. Qed.
Lemma wo_pos i : (i < size xs)%N -> 0 < nth 0 d i.
Proof. by have := @of_pos _ _ _ _ _ _ h i; rewrite /num_coords [times _]/= varsE. Qed.

Lemma without_log_normal : log_normal (CT 0) kern xs d y
  = log_normal (CT 0) kern (without p xs) (without p d) (without p y)
    + log_normal1 (nth 0 y p) (gp_mean (CT 0) kern (without p xs) (without p d) (without p y) (CT (nth 0 t p)))
        (gp_var (CT 0) kern (without p xs) (without p d) (CT (nth 0 t p)) + nth 0 d p).
Proof.
have e : nth (CT 0) xs p = CT (nth 0 t p) by rewrite (nth_map 0).
rewrite -e; apply: log_normal_at; rewrite ?size_map ?wo_y //.
- exact: (of_sym h).
- exact: (of_psd h).
- by move=> i hi; apply: wo_pos; rewrite size_map.
- exact: wo_var.
- by rewrite wo_map; have := of_det h'; rewrite /num_coords [times _]/= wo_vars.
Qed.

Lemma without_log_probability lp c :
  gp_condition smolgp_ops g' (without p y) None None = inr (lp, c) ->
  tests_kept k (CArray (without p t)) (CArray [:: nth 0 t p]) ->
  exists m s l, predicts c (CArray [:: nth 0 t p]) [:: m] [:: s] /\ 0 <= s /\ lp = Fin l /\
    gp_log_probability smolgp_ops g y = inr (Fin (l + log_normal1 (nth 0 y p) m (s + nth 0 d p))).
Proof.
move=> /(of_cond h') [-> _ _ hc] /hc; rewrite /num_coords [times _]/= wo_vars /= => hq.
do 3!eexists; split; first exact: hq; split; first by rewrite -wo_map; exact: wo_var.
split; first by [].
by rewrite (of_log h) /num_coords [times _]/= varsE // without_log_normal -wo_map.
Qed.

Lemma without_var lp c lp' c' Xt :
  gp_condition smolgp_ops g y None None = inr (lp, c) ->
  gp_condition smolgp_ops g' (without p y) None None = inr (lp', c') ->
  tests_kept k (CArray t) Xt -> tests_kept k (CArray (without p t)) Xt ->
  exists mu va mu' va', predicts c Xt mu va /\ predicts c' Xt mu' va' /\
    size va = num_coords Xt /\ size va' = num_coords Xt /\ 
    forall i, (i < num_coords Xt)%N -> nth 0 va i <= nth 0 va' i.
Proof.
move=> /(of_cond h) [_ _ _ hc] /(of_cond h') [_ _ _ hc'] /hc hq /hc' hq'.
do 4!eexists; split; first exact: hq; split; first exact: hq'.
rewrite !size_map !size_coord_list; do 2!split=> //.
move=> i hi; rewrite !(nth_map (CT 0)) ?size_coord_list // /num_coords [times _]/= [times (CArray (without _ _))]/=.
rewrite wo_vars varsE // /coord_list -wo_map.
apply: var_at; rewrite ?size_map //.
- exact: (of_sym h).
- exact: (of_psd h).
- by move=> j hj; apply: wo_pos; rewrite size_map.
- exact: wo_var.
Qed.
End Without.
