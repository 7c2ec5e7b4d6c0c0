(** C55: variances of integrated models: bounds, added exposures, leave one out. *)
From Coq Require Import Reals String.
From mathcomp Require Import all_ssreflect all_algebra.
From Verif.Prelude Require Import Rstruct Psd.
From Verif.Spec Require Import Gp WfKernel CovOf Data IntCov WfIntegrated Exposures Smoothable TestTimes
  Transform IntTransform.
From Verif.Model Require Import Array BaseKernels IntegratedKernels Kernel Integrated Frontend SequentialOps Gp.
From Verif.Proofs Require Import IntExample IntUnitsExample IntVar IntVarExample.
Local Open Scope R_scope.

(** The covariance of the exposures is one, also of overlapping and tied exposures. *)

Theorem C55_covariance : forall k b, wf_integrated k -> base_kernel k = Some b ->
  forall xs, psdmx (gram (CT 0) (integrated_cov b) xs).
Proof. exact (fun k b wf eb xs => int_psd wf eb xs). Qed.
Print Assumptions C55_covariance.

(** Between 0 and the variance before the data were seen. *)

Theorem C55_bounds : forall k b X diag y g, int_gp_of k b X diag y g -> smooth_of k X ->
  forall lp c, gp_condition smolgp_ops g y None None = inr (lp, c) ->
  (exists va, [/\ g_var c = Some (Vector va), size va = num_coords X &
     forall i, (i < num_coords X)%N ->
       0 <= nth 0 va i <= integrated_cov b (exposure X i) (exposure X i)]) /\
  forall ts, int_tests_kept k X ts -> exists mu va, [/\ predicts c (CArray ts) mu va, size va = size ts &
     forall i, (i < size ts)%N -> 0 <= nth 0 va i <= covariance b 0].
Proof. exact (fun k b X diag y g h so lp c => var_bounds h so (lp := lp) (c := c)). Qed.
Print Assumptions C55_bounds.

(** Exposure p added to the others does not make any prediction less certain. *)

Theorem C55_variance : forall k b t dl d y inst p g g', (p < size t)%N -> size d = size t ->
  let X := CTriple t dl inst in
  let X' := CTriple (without p t) (without p dl) (without p inst) in
  int_gp_of k b X (Some (Vector d)) y g ->
  int_gp_of k b X' (Some (Vector (without p d))) (without p y) g' ->
  forall lp c lp' c' ts, smooth_of k X -> smooth_of k X' ->
  gp_condition smolgp_ops g y None None = inr (lp, c) ->
  gp_condition smolgp_ops g' (without p y) None None = inr (lp', c') ->
  int_tests_kept k X ts -> int_tests_kept k X' ts ->
  exists mu va mu' va', [/\ predicts c (CArray ts) mu va, predicts c' (CArray ts) mu' va',
    size va = size ts, size va' = size ts & forall i, (i < size ts)%N -> nth 0 va i <= nth 0 va' i].
Proof. exact (fun k b t dl d y inst p g g' hp sd h h' lp c lp' c' ts so so' hc hc' =>
  wo_int_var hp sd h h' so so' hc hc' (ts := ts)). Qed.
Print Assumptions C55_variance.

(** For an exposure p of length 0 the likelihood factorises as in C51. *)

Theorem C55_leave_one_out : forall k b t dl d y inst p g g', (p < size t)%N -> size d = size t ->
  let X := CTriple t dl inst in
  let X' := CTriple (without p t) (without p dl) (without p inst) in
  int_gp_of k b X (Some (Vector d)) y g ->
  int_gp_of k b X' (Some (Vector (without p d))) (without p y) g' ->
  forall lp c, nth 0 dl p = 0 -> smooth_of k X' ->
  gp_condition smolgp_ops g' (without p y) None None = inr (lp, c) ->
  int_tests_kept k X' [:: nth 0 t p] ->
  exists m s l, predicts c (CArray [:: nth 0 t p]) [:: m] [:: s] /\ 0 <= s /\ lp = Fin l /\
    gp_log_probability smolgp_ops g y = inr (Fin (l + log_normal1 (nth 0 y p) m (s + nth 0 d p))).
Proof. exact (fun k b t dl d y inst p g g' hp sd h h' lp c l0 so' hc => wo_int_log hp sd h h' l0 so' hc). Qed.
Print Assumptions C55_leave_one_out.

(** Exposures of two instruments with and without the one of length 0. *)
Example C55_ex : exists g g1,
  [/\ int_gp_of k_int b_int X_ut (Some (Vector d_ut)) y_int g,
      int_gp_of k_int b_int X_wo (Some (Vector (without 2 d_ut))) (without 2 y_int) g1,
      smooth_of k_int X_ut /\ smooth_of k_int X_wo &
      forall ts, int_tests_kept k_int X_ut ts /\ int_tests_kept k_int X_wo ts].
Proof. exact wo_example. Qed.
