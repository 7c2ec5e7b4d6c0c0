(** C50: inference does not know the direction of time. *)
From Coq Require Import Reals String.
From mathcomp Require Import all_ssreflect all_algebra.
From Verif.Prelude Require Import Rstruct.
From Verif.Spec Require Import WfKernel CovOf LogNormal Data Transform.
From Verif.Model Require Import BaseKernels Kernel Integrated Frontend SequentialOps Gp.
From Verif.Proofs Require Import TransferThms TransferUnits TransferExample.
Local Open Scope R_scope.

Theorem C50_log_probability : forall k t d y a kern g g', size d = size t ->
  gp_of k (CArray t) (Some (Vector d)) y kern g ->
  gp_of k (CArray (mirror a t)) (Some (Vector (rev d))) (rev y) kern g' ->
  gp_log_probability smolgp_ops g' (rev y) = gp_log_probability smolgp_ops g y.
Proof. exact (fun k t d y a kern g g' sd h h' => mirror_log_probability sd h h'). Qed.
Print Assumptions C50_log_probability.

Theorem C50_condition_predict : forall k t d y a kern g g', size d = size t ->
  gp_of k (CArray t) (Some (Vector d)) y kern g ->
  gp_of k (CArray (mirror a t)) (Some (Vector (rev d))) (rev y) kern g' ->
  forall lp c lp' c', gp_condition smolgp_ops g y None None = inr (lp, c) ->
  gp_condition smolgp_ops g' (rev y) None None = inr (lp', c') ->
  [/\ lp' = lp, g_mean c' = rev (g_mean c),
    (exists va, g_var c = Some (Vector va) /\ g_var c' = Some (Vector (rev va))) &
    forall s, tests_kept k (CArray t) (CArray s) ->
      tests_kept k (CArray (mirror a t)) (CArray [seq a - u | u <- s]) ->
      exists mu va, predicts c (CArray s) mu va /\ predicts c' (CArray [seq a - u | u <- s]) mu va].
Proof. exact (fun k t d y a kern g g' sd h h' => mirror_condition sd h h'). Qed.
Print Assumptions C50_condition_predict.

(** A data set, and the same reflected about 5/2 (second and fourth line). *)
Example C50_ex : documented k_tr /\ exists kern g g1 g2 g3 g4 kern3 kern4,
  gp_of k_tr (CArray t_tr) (Some (Vector d_tr)) y_tr kern g /\
  gp_of k_tr (CArray (without 2 t_tr)) (Some (Vector (without 2 d_tr))) (without 2 y_tr) kern g1 /\
  gp_of k_tr (CArray (mirror 5 t_tr)) (Some (Vector (rev d_tr))) (rev y_tr) kern g2 /\
  gp_of (amplify (-2) k_tr) (CArray t_tr) (Some (Vector [seq (-2) ^ 2 * r | r <- d_tr]))
    [seq -2 * v | v <- y_tr] kern3 g3 /\
  gp_of (dilate 24 k_tr) (CArray [seq 24 * u | u <- t_tr]) (Some (Vector d_tr)) y_tr kern4 g4.
Proof. exact tr_example. Qed.

(** Without SHO, Scale and Custom the condition on the test times is void. *)
Example C50_ex_tests : forall Xt, tests_kept k_tr (CArray t_tr) Xt.
Proof. exact (fun Xt => @plain_tests k_tr (CArray t_tr) Xt (conj I (conj I I))). Qed.
