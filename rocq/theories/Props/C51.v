(** C51: the likelihood factorises into one-datum predictions. *)
From Coq Require Import Reals String.
From mathcomp Require Import all_ssreflect all_algebra.
From Verif.Prelude Require Import Rstruct.
From Verif.Spec Require Import WfKernel CovOf LogNormal Data Transform.
From Verif.Model Require Import BaseKernels Kernel Integrated Frontend SequentialOps Gp.
From Verif.Proofs Require Import TransferThms TransferUnits TransferExample.
Local Open Scope R_scope.

(** Removing any datum p, the log likelihood of all data is that of the others plus the log density of
    y_p under the prediction made from the others, with the variance of its noise added. *)

Theorem C51_leave_one_out : forall k t d y p kern g g', (p < size t)%N -> size d = size t ->
  gp_of k (CArray t) (Some (Vector d)) y kern g ->
  gp_of k (CArray (without p t)) (Some (Vector (without p d))) (without p y) kern g' ->
  forall lp c, gp_condition smolgp_ops g' (without p y) None None = inr (lp, c) ->
  tests_kept k (CArray (without p t)) (CArray [:: nth 0 t p]) ->
  exists m s l, predicts c (CArray [:: nth 0 t p]) [:: m] [:: s] /\ 0 <= s /\ lp = Fin l /\
    gp_log_probability smolgp_ops g y = inr (Fin (l + log_normal1 (nth 0 y p) m (s + nth 0 d p))).
Proof. exact (fun k t d y p kern g g' hp sd h h' => without_log_probability hp sd h h'). Qed.
Print Assumptions C51_leave_one_out.

(** A data set with and without datum 2, which shares its time with datum 1 (first and second line). *)
Example C51_ex : documented k_tr /\ exists kern g g1 g2 g3 g4 kern3 kern4,
  gp_of k_tr (CArray t_tr) (Some (Vector d_tr)) y_tr kern g /\
  gp_of k_tr (CArray (without 2 t_tr)) (Some (Vector (without 2 d_tr))) (without 2 y_tr) kern g1 /\
  gp_of k_tr (CArray (mirror 5 t_tr)) (Some (Vector (rev d_tr))) (rev y_tr) kern g2 /\
  gp_of (amplify (-2) k_tr) (CArray t_tr) (Some (Vector [seq (-2) ^ 2 * r | r <- d_tr]))
    [seq -2 * v | v <- y_tr] kern3 g3 /\
  gp_of (dilate 24 k_tr) (CArray [seq 24 * u | u <- t_tr]) (Some (Vector d_tr)) y_tr kern4 g4.
Proof. exact tr_example. Qed.

(** Without SHO, Scale and Custom the condition on the test times is void. *)
Example C51_ex_tests : forall Xt, tests_kept k_tr (CArray t_tr) Xt.
Proof. exact (fun Xt => @plain_tests k_tr (CArray t_tr) Xt (conj I (conj I I))). Qed.
