(** C54: integrated models do not depend on units, on the zero of time or on its direction. *)
From Coq Require Import Reals String.
From mathcomp Require Import all_ssreflect all_algebra.
From Verif.Prelude Require Import Rstruct.
From Verif.Spec Require Import WfKernel CovOf Data IntCov WfIntegrated Exposures Smoothable TestTimes
  Transform IntTransform.
From Verif.Model Require Import Array BaseKernels IntegratedKernels Kernel Integrated Frontend SequentialOps Gp.
From Verif.Proofs Require Import IntExample IntUnits IntUnitsExample.
Local Open Scope R_scope.

(** Times a + s u and lengths |s| l, with the length scales of the kernel times |s|; for |s| = 1 the
    kernel may be the same: a shift of time, or its reversal (s = -1).  Conditioning as in C25. *)

Theorem C54_time : forall k k' b b' t dl inst diag y a s g g', s <> 0 ->
  (forall r, 0 <= r -> covariance b' (Rabs s * r) = covariance b r) ->
  let X := CTriple t dl inst in let X' := clock_exposures a s X in
  int_gp_of k b X diag y g -> int_gp_of k' b' X' diag y g' ->
  gp_log_probability smolgp_ops g' y = gp_log_probability smolgp_ops g y /\
  forall lp c lp' c', smooth_of k X -> smooth_of k' X' ->
  gp_condition smolgp_ops g y None None = inr (lp, c) ->
  gp_condition smolgp_ops g' y None None = inr (lp', c') ->
  [/\ lp' = lp, g_mean c' = g_mean c, g_var c' = g_var c &
    forall ts, int_tests_kept k X ts -> int_tests_kept k' X' [seq clock a s u | u <- ts] ->
      exists mu va, predicts c (CArray ts) mu va /\ predicts c' (CArray [seq clock a s u | u <- ts]) mu va].
Proof. exact (fun k k' b b' t dl inst diag y a s g g' s0 cov h h' =>
  conj (time_log_probability s0 cov h h')
    (fun lp c lp' c' so so' hc hc' => time_condition s0 cov h h' so so' hc hc')). Qed.
Print Assumptions C54_time.

Theorem C54_dilate : forall a k b, 0 < a -> wf_integrated k -> base_kernel k = Some b ->
  base_kernel (int_dilate a k) = Some (dilate a b) /\
  forall r, covariance (dilate a b) (a * r) = covariance b r.
Proof. exact int_dilate_base. Qed.
Print Assumptions C54_dilate.

(** Data, noise and kernel in another unit. *)

Theorem C54_data_units : forall k k' b b' X d y c g g', c <> 0 ->
  (forall r, 0 <= r -> covariance b' r = c ^ 2 * covariance b r) -> size d = num_coords X ->
  int_gp_of k b X (Some (Vector d)) y g ->
  int_gp_of k' b' X (Some (Vector [seq c ^ 2 * r | r <- d])) [seq c * v | v <- y] g' ->
  (exists l, gp_log_probability smolgp_ops g y = inr (Fin l) /\
     gp_log_probability smolgp_ops g' [seq c * v | v <- y]
     = inr (Fin (l - INR (num_coords X) * ln (Rabs c)))) /\
  forall lp co lp' co', smooth_of k X -> smooth_of k' X ->
  gp_condition smolgp_ops g y None None = inr (lp, co) ->
  gp_condition smolgp_ops g' [seq c * v | v <- y] None None = inr (lp', co') ->
  g_mean co' = [seq c * m | m <- g_mean co] /\
  (exists va, g_var co = Some (Vector va) /\ g_var co' = Some (Vector [seq c ^ 2 * v | v <- va])) /\
  forall ts, int_tests_kept k X ts -> int_tests_kept k' X ts ->
    exists mu va, predicts co (CArray ts) mu va /\
      predicts co' (CArray ts) [seq c * m | m <- mu] [seq c ^ 2 * v | v <- va].
Proof. exact (fun k k' b b' X d y c g g' c0 cov sd h h' =>
  conj (unit_log_probability c0 cov sd h h')
    (fun lp co lp' co' so so' hc hc' => unit_condition c0 cov sd h h' so so' hc hc')). Qed.
Print Assumptions C54_data_units.

Theorem C54_amplify : forall c k b, wf_integrated k -> base_kernel k = Some b ->
  base_kernel (int_amplify c k) = Some (amplify c b) /\
  forall r, covariance (amplify c b) r = c ^ 2 * covariance b r.
Proof. exact int_amplify_base. Qed.
Print Assumptions C54_amplify.

(** Exposures of two instruments; time reversed and in hours instead of days; the data times -2. *)
Example C54_ex : exists g g1 g2,
  [/\ int_gp_of k_int b_int X_ut (Some (Vector d_ut)) y_int g,
      int_gp_of (int_dilate 24 k_int) (dilate 24 b_int) (clock_exposures 5 (-24) X_ut)
        (Some (Vector d_ut)) y_int g1 &
      int_gp_of (int_amplify (-2) k_int) (amplify (-2) b_int) X_ut
        (Some (Vector [seq (-2) ^ 2 * r | r <- d_ut])) [seq -2 * v | v <- y_int] g2] /\
  [/\ smooth_of k_int X_ut, smooth_of (int_dilate 24 k_int) (clock_exposures 5 (-24) X_ut) &
      smooth_of (int_amplify (-2) k_int) X_ut].
Proof. exact ut_example. Qed.
