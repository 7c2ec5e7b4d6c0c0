(** C53: results do not depend on the units of the data and of time. *)
From Coq Require Import Reals String.
From mathcomp Require Import all_ssreflect all_algebra.
From Verif.Prelude Require Import Rstruct.
From Verif.Spec Require Import WfKernel CovOf LogNormal Data Transform.
From Verif.Model Require Import BaseKernels Kernel Integrated Frontend SequentialOps Gp.
From Verif.Proofs Require Import TransferThms TransferUnits TransferExample UnitsRefute.
Local Open Scope R_scope.

(** Data, noise and kernel in another unit: c y, c^2 diag, c^2 k. *)

Theorem C53_data_units : forall k k' X d y c kern kern' g g', c <> 0 ->
  (forall X1 X2, kern' X1 X2 = c ^ 2 * kern X1 X2) -> size d = num_coords X ->
  gp_of k X (Some (Vector d)) y kern g ->
  gp_of k' X (Some (Vector [seq c ^ 2 * r | r <- d])) [seq c * v | v <- y] kern' g' ->
  (exists l, gp_log_probability smolgp_ops g y = inr (Fin l) /\
     gp_log_probability smolgp_ops g' [seq c * v | v <- y]
     = inr (Fin (l - INR (num_coords X) * ln (Rabs c)))) /\
  forall lp co lp' co', gp_condition smolgp_ops g y None None = inr (lp, co) ->
  gp_condition smolgp_ops g' [seq c * v | v <- y] None None = inr (lp', co') ->
  g_mean co' = [seq c * m | m <- g_mean co] /\
  (exists va, g_var co = Some (Vector va) /\ g_var co' = Some (Vector [seq c ^ 2 * v | v <- va])) /\
  forall Xt, tests_kept k X Xt -> tests_kept k' X Xt ->
    exists mu va, predicts co Xt mu va /\ predicts co' Xt [seq c * m | m <- mu] [seq c ^ 2 * v | v <- va].
Proof. exact (fun k k' X d y c kern kern' g g' c0 kk sd h h' =>
  conj (amp_log_probability c0 kk sd h h') (amp_condition c0 kk sd h h')). Qed.
Print Assumptions C53_data_units.

(** The kernel scaled by c^2 is the one with every standard deviation times c. *)

Theorem C53_amplify : forall c k kern kern', c <> 0 -> wf_kernel k -> documented k ->
  (forall X1 X2, kernel_evaluate false k X1 X2 = inr (kern X1 X2)) ->
  (forall X1 X2, kernel_evaluate false (amplify c k) X1 X2 = inr (kern' X1 X2)) ->
  forall X1 X2, kern' X1 X2 = c ^ 2 * kern X1 X2.
Proof. exact amplify_kern. Qed.
Print Assumptions C53_amplify.

(** Times and length scales in another unit. *)

Theorem C53_time_units : forall k t d y a kern kern' g g', 0 < a -> documented k -> size d = size t ->
  gp_of k (CArray t) (Some (Vector d)) y kern g ->
  gp_of (dilate a k) (CArray [seq a * u | u <- t]) (Some (Vector d)) y kern' g' ->
  gp_log_probability smolgp_ops g' y = gp_log_probability smolgp_ops g y /\
  forall lp c lp' c', gp_condition smolgp_ops g y None None = inr (lp, c) ->
  gp_condition smolgp_ops g' y None None = inr (lp', c') ->
  [/\ lp' = lp, g_mean c' = g_mean c, g_var c' = g_var c &
    forall s, tests_kept k (CArray t) (CArray s) ->
      tests_kept (dilate a k) (CArray [seq a * u | u <- t]) (CArray [seq a * u | u <- s]) ->
      exists mu va, predicts c (CArray s) mu va /\ predicts c' (CArray [seq a * u | u <- s]) mu va].
Proof. exact (fun k t d y a kern kern' g g' a0 dk sd h h' =>
  conj (dilate_log_probability a0 dk sd h h') (dilate_condition a0 dk sd h h')). Qed.
Print Assumptions C53_time_units.

(** The claim in full, with no condition on the noise of the rescaled model, is false: a
    small unit puts the process noise of an SHO kernel below the absolute threshold of kernels/base.py:704. *)
Theorem C53_flush_refuted : exists k X d y c kern g g', c <> 0 /\ documented k /\ sharp_kernel k /\
  size d = num_coords X /\ gp_of k X (Some (Vector d)) y kern g /\
  wf_kernel (amplify c k) /\
  valid_data X (Some (Vector [seq c ^ 2 * r | r <- d])) [seq c * v | v <- y] /\
  gaussian_process smolgp_ops (amplify c k) X (Some (Vector [seq c ^ 2 * r | r <- d])) None NoSolver = inr g' /\
  exists l, gp_log_probability smolgp_ops g y = inr (Fin l) /\
    gp_log_probability smolgp_ops g' [seq c * v | v <- y]
    <> inr (Fin (l - INR (num_coords X) * ln (Rabs c))).
Proof. exact flush_units_refuted. Qed.
Print Assumptions C53_flush_refuted.

(** A data set, the data times -2, and the times in hours instead of days. *)
Example C53_ex : documented k_tr /\ exists kern g g1 g2 g3 g4 kern3 kern4,
  gp_of k_tr (CArray t_tr) (Some (Vector d_tr)) y_tr kern g /\
  gp_of k_tr (CArray (without 2 t_tr)) (Some (Vector (without 2 d_tr))) (without 2 y_tr) kern g1 /\
  gp_of k_tr (CArray (mirror 5 t_tr)) (Some (Vector (rev d_tr))) (rev y_tr) kern g2 /\
  gp_of (amplify (-2) k_tr) (CArray t_tr) (Some (Vector [seq (-2) ^ 2 * r | r <- d_tr]))
    [seq -2 * v | v <- y_tr] kern3 g3 /\
  gp_of (dilate 24 k_tr) (CArray [seq 24 * u | u <- t_tr]) (Some (Vector d_tr)) y_tr kern4 g4.
Proof. exact tr_example. Qed.

(** Without SHO, Scale and Custom the condition on the test times is void. *)
Example C53_ex_tests : forall Xt, tests_kept k_tr (CArray t_tr) Xt.
Proof. exact (fun Xt => @plain_tests k_tr (CArray t_tr) Xt (conj I (conj I I))). Qed.
