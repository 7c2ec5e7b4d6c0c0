(** C38: sums of integrated and instantaneous kernels. *)
From Coq Require Import Reals String.
From mathcomp Require Import all_ssreflect all_algebra.
From Verif.Spec Require Import WfKernel LogNormal Data IntCov Exposures Mixed.
From Verif.Model Require Import BaseKernels Kernel Frontend Gp.
From Verif.Proofs Require Import Names FitMix MixThms IntExample.
Local Open Scope R_scope.

(** Such a sum is given to the integrated solver. *)

Theorem C38_solver : forall k n X diag mean sa y, has_integrated k -> names_ok k ->
  valid_exposures n X diag y -> default_integrated_solver sa ->
  exists g, gaussian_process smolgp_ops k X diag mean sa = inr g /\
            sv_kind (g_solver g) = IntegratedStateSpaceSolver.
Proof. exact mix_defined. Qed.
Print Assumptions C38_solver.

(** Its log_probability is the density of the process in which the integrated summands are averaged
    over the exposures and the others are read at their ends. *)

Theorem C38_log_probability : forall k n X diag mean sa y g,
  wf_mixed k -> has_integrated k -> serves n k ->
  valid_exposures n X diag y -> mixed_steps_kept k X -> default_integrated_solver sa ->
  gaussian_process smolgp_ops k X diag mean sa = inr g ->
  gp_log_probability smolgp_ops g y
  = inr (Fin (log_normal (CT 0) (mixed_cov finish k) (coord_list X) (variances diag (num_coords X)) y)).
Proof. exact mix_log_probability. Qed.
Print Assumptions C38_log_probability.

(** For exposures of one length this is the claim: midpoints. *)

Theorem C38_midpoints_partial : forall k n X diag mean sa y g,
  wf_mixed k -> has_integrated k -> serves n k ->
  valid_exposures n X diag y -> mixed_steps_kept k X -> default_integrated_solver sa ->
  (forall i j, (i < num_coords X)%N -> (j < num_coords X)%N -> len (exposure X i) = len (exposure X j)) ->
  gaussian_process smolgp_ops k X diag mean sa = inr g ->
  gp_log_probability smolgp_ops g y
  = inr (Fin (log_normal (CT 0) (mixed_cov mid k) (coord_list X) (variances diag (num_coords X)) y)).
Proof. exact mix_midpoints. Qed.
Print Assumptions C38_midpoints_partial.

Example C38_ex : wf_mixed k_mix /\ has_integrated k_mix /\ serves 2 k_mix /\ names_ok k_mix /\
  valid_exposures 2 X_int diag_int y_int /\ mixed_steps_kept k_mix X_int /\
  valid_exposures 2 X_eq (Some (Vector [:: 1; 2; 1])) [:: 3; 4; 5] /\ mixed_steps_kept k_mix X_eq /\
  (forall i j, (i < num_coords X_eq)%N -> (j < num_coords X_eq)%N ->
     len (exposure X_eq i) = len (exposure X_eq j)).
Proof.
split; [exact k_mix_wf|]. split; [left; discriminate|]. split; [split; reflexivity|].
split; [exact k_mix_names|]. split; [exact X_int_valid|]. split; [exact (@k_mix_kept _)|].
split; [exact X_eq_valid|]. split; [exact (@k_mix_kept _)|]. exact X_eq_len.
Qed.

(** For exposures of different lengths it is not. *)

Theorem C38_midpoints_refuted : exists k n X diag y g,
  wf_mixed k /\ has_integrated k /\ serves n k /\ valid_exposures n X diag y /\ mixed_steps_kept k X /\
  gaussian_process smolgp_ops k X diag None NoSolver = inr g /\
  gp_log_probability smolgp_ops g y
  <> inr (Fin (log_normal (CT 0) (mixed_cov mid k) (coord_list X) (variances diag (num_coords X)) y)).
Proof. exact mix_refuted. Qed.
Print Assumptions C38_midpoints_refuted.
