(** Data sets for the statements about two GPs. *)
From Coq Require Import Reals String Lra.
From mathcomp Require Import all_ssreflect all_algebra.
From Verif.Prelude Require Import Rstruct Psd.
From Verif.Spec Require Import Gp Lti WfKernel Cov CovOf LogNormal Data Transform.
From Verif.Model Require Import Array Jax Ssm Sequential BaseKernels Kernel Integrated Frontend
  SequentialOps Gp.
From Verif.Proofs Require Import KernelThms Fit FitThms FitMore FrontThms FitExample FitRefute FrontDefined FrontProps TransferThms TransferUnits.
Set Implicit Arguments.
Unset Strict Implicit.
Unset Printing Implicit Defensive.
Local Open Scope R_scope.

Lemma gp_of_defined k : wf_kernel k -> const_obs k -> plain_noise k -> no_constant k -> names_ok k ->
  exists kern, (forall X1 X2, kernel_evaluate false k X1 X2 = inr (kern X1 X2)) /\
    forall X diag y, valid_data X diag y -> exists g, gp_of k X diag y kern g.
Proof.
move=> wf co pn nc nok; have [kern hk] := kernel_evaluate_fun nc.
exists kern; split=> // X diag y vd.
have [g hg] := thm_defined None wf vd (or_introl erefl) nok.
exists g; split=> //; first by split=> *; exact: plain_kept.
by exists None, NoSolver; split; first by left.
Qed.
Lemma plain_tests k X Xt : plain_noise k -> tests_kept k X Xt.
Proof. by move=> pn x _ i _ _ _; exact: plain_kept. Qed.

Definition k_tr : kernel := Sum (Matern32 2 1 "a") (Product (Exp 1 3 "b") (Cosine 2 1 "c")).
Definition t_tr : seq R := [:: 0; 1; 1; 3].
Definition d_tr : seq R := [:: 1; 2; 3; 4].
Definition y_tr : seq R := [:: 1; -1; 2; 5].
Lemma tr_valid : valid_data (CArray t_tr) (Some (Vector d_tr)) y_tr.
Proof.
split=> //; last by case=> [|[|[|[|i]]]] //= _; lra.
by move=> i j /andP[]; case: i j => [|[|[|[|i]]]] [|[|[|[|j]]]] //= _ _; lra.
Qed.
Lemma tr_without : valid_data (CArray (without 2 t_tr)) (Some (Vector (without 2 d_tr))) (without 2 y_tr).
Proof.
split=> //; last by case=> [|[|[|i]]] //= _; lra.
by move=> i j /andP[]; case: i j => [|[|[|i]]] [|[|[|j]]] //= _ _; lra.
Qed.
Lemma tr_mirror : valid_data (CArray (mirror 5 t_tr)) (Some (Vector (rev d_tr))) (rev y_tr).
Proof.
split=> //; last by case=> [|[|[|[|i]]]] //= _; lra.
by move=> i j /andP[]; case: i j => [|[|[|[|i]]]] [|[|[|[|j]]]] //= _ _; lra.
Qed.
Lemma tr_amplify : valid_data (CArray t_tr) (Some (Vector [seq (-2) ^ 2 * r | r <- d_tr])) [seq -2 * v | v <- y_tr].
Proof.
split=> //; last by case=> [|[|[|[|i]]]] //= _; lra.
by move=> i j /andP[]; case: i j => [|[|[|[|i]]]] [|[|[|[|j]]]] //= _ _; lra.
Qed.
Lemma tr_dilate : valid_data (CArray [seq 24 * u | u <- t_tr]) (Some (Vector d_tr)) y_tr.
Proof.
split=> //; last by case=> [|[|[|[|i]]]] //= _; lra.
by move=> i j /andP[]; case: i j => [|[|[|[|i]]]] [|[|[|[|j]]]] //= _ _; lra.
Qed.
Lemma tr_wf : wf_kernel k_tr. Proof. by repeat split; lra. Qed.
Lemma tr_names : names_ok k_tr. Proof. by left; split; [case | split; [case |]]. Qed.
Lemma tr_names_amp : names_ok (amplify (-2) k_tr). Proof. by left; split; [case | split; [case |]]. Qed.
Lemma tr_names_dil : names_ok (dilate 24 k_tr). Proof. by left; split; [case | split; [case |]]. Qed.
Lemma tr_wf_amp : wf_kernel (amplify (-2) k_tr). Proof. by repeat split; lra. Qed.
Lemma tr_wf_dil : wf_kernel (dilate 24 k_tr). Proof. by repeat split; lra. Qed.

Lemma tr_example : documented k_tr /\ exists kern g g1 g2 g3 g4 kern3 kern4,
  gp_of k_tr (CArray t_tr) (Some (Vector d_tr)) y_tr kern g /\
  gp_of k_tr (CArray (without 2 t_tr)) (Some (Vector (without 2 d_tr))) (without 2 y_tr) kern g1 /\
  gp_of k_tr (CArray (mirror 5 t_tr)) (Some (Vector (rev d_tr))) (rev y_tr) kern g2 /\
  gp_of (amplify (-2) k_tr) (CArray t_tr) (Some (Vector [seq (-2) ^ 2 * r | r <- d_tr]))
    [seq -2 * v | v <- y_tr] kern3 g3 /\
  gp_of (dilate 24 k_tr) (CArray [seq 24 * u | u <- t_tr]) (Some (Vector d_tr)) y_tr kern4 g4.
Proof.
split; first by [].
have [kern [_ h]] := gp_of_defined tr_wf (ltac:(done)) (ltac:(done)) (ltac:(done)) tr_names.
have [kern3 [_ h3]] := gp_of_defined tr_wf_amp (ltac:(done)) (ltac:(done)) (ltac:(done)) tr_names_amp.
have [kern4 [_ h4]] := gp_of_defined tr_wf_dil (ltac:(done)) (ltac:(done)) (ltac:(done)) tr_names_dil.
have [g hg] := h _ _ _ tr_valid; have [g1 hg1] := h _ _ _ tr_without; have [g2 hg2] := h _ _ _ tr_mirror.
have [g3 hg3] := h3 _ _ _ tr_amplify; have [g4 hg4] := h4 _ _ _ tr_dilate.
by exists kern, g, g1, g2, g3, g4, kern3, kern4.
Qed.

Lemma of_condition_defined k X diag y kern g : gp_of k X diag y kern g -> names_ok k ->
  num_coords X <> 1%N -> exists lp c, gp_condition smolgp_ops g y None None = inr (lp, c).
Proof.
case=> wf co vd kept hk [mean [sa [hs hg]]] nok n1; exact: (thm_condition_defined wf vd hk hs nok hg n1).
Qed.

(** A sum and the same sum in another order. *)
Lemma swap_example : exists kern kern' g g',
  gp_of k_tr (CArray t_tr) (Some (Vector d_tr)) y_tr kern g /\
  gp_of (Sum (Product (Cosine 2 1 "c") (Exp 1 3 "b")) (Matern 1 2 1)) (CArray t_tr)
    (Some (Vector d_tr)) y_tr kern' g' /\
  forall X1 X2, kern' X1 X2 = kern X1 X2.
Proof.
set k' := Sum _ (Matern _ _ _).
have [kern [hk h]] := gp_of_defined tr_wf (ltac:(done)) (ltac:(done)) (ltac:(done)) tr_names.
have wf' : wf_kernel k' by repeat split; lra.
have nok : names_ok k' by left; split; [case | split; [case |]].
have [kern' [hk' h']] := gp_of_defined wf' (ltac:(done)) (ltac:(done)) (ltac:(done)) nok.
have [g hg] := h _ _ _ tr_valid; have [g' hg'] := h' _ _ _ tr_valid.
exists kern, kern', g, g'; do 2!split=> //; move=> X1 X2.
have m : kernel_evaluate false (Matern 1 2 1) X1 X2 = kernel_evaluate false (Matern32 2 1 "") X1 X2.
  by have [] := @matern1_agrees 2 1 _ _; [lra|lra|] => _ [_ [_ [_ [_ e]]]]; have [_ []] := e X1 X2.
have [v1 e1] : exists v, kernel_evaluate false (Exp 1 3 "b") X1 X2 = inr v by exact: kernel_evaluate_defined.
have [v2 e2] : exists v, kernel_evaluate false (Cosine 2 1 "c") X1 X2 = inr v by exact: kernel_evaluate_defined.
have [v3 e3] : exists v, kernel_evaluate false (Matern32 2 1 "a") X1 X2 = inr v by exact: kernel_evaluate_defined.
have e4 : kernel_evaluate false (Matern 1 2 1) X1 X2 = inr v3 by rewrite m -e3.
have [_ p1] := evaluate_sum_product e1 e2; have [_ p2] := evaluate_sum_product e2 e1.
have [s1 _] := evaluate_sum_product e3 p1; have [s2 _] := evaluate_sum_product p2 e4.
move: (hk X1 X2) (hk' X1 X2); rewrite s1 s2 => -[<-] [<-]; toR; ring.
Qed.
