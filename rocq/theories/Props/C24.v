(** C24: integrated log_probability is exact. *)
From Coq Require Import Reals String.
From mathcomp Require Import all_ssreflect all_algebra.
From Verif.Prelude Require Import Rstruct Psd.
From Verif.Spec Require Import Expm Gp Lti WfKernel Cov CovOf LogNormal Data IntCov WfIntegrated Exposures.
From Verif.Model Require Import Array Jax Ssm Sequential Parallel BaseKernels IntegratedKernels Kernel
  Integrated Frontend SequentialOps Gp.
From Verif.Proofs Require Import KernelThms IntegratedThms FitInt IntOrder IntThms IntExample OverlapRefute.
Import GRing.Theory.
Local Open Scope R_scope.

(** [integrated_cov b] averages the covariance of the base kernel b over both exposures
    (Spec/IntCov.v); the exposures are in any order and those of different instruments may overlap.
    Process noise entries must not be below the 1e-14 rounding of SHO ([exposure_steps_kept]). *)

Theorem C24_log_probability : forall k b X diag mean sa y g, wf_integrated k -> base_kernel k = Some b ->
  valid_exposures (instruments k) X diag y -> exposure_steps_kept k X ->
  default_integrated_solver sa -> gaussian_process smolgp_ops k X diag mean sa = inr g ->
  gp_log_probability smolgp_ops g y
  = inr (Fin (log_normal (CT 0) (integrated_cov b) (coord_list X) (variances diag (num_coords X)) y)).
Proof. exact (fun k b X diag mean sa y g wf eb ve sk hs hg => int_log_probability wf eb hs ve sk hg). Qed.
Print Assumptions C24_log_probability.

(** Without IntegratedSHO nothing is rounded. *)

Theorem C24_plain : forall k X, wf_integrated k -> plain_integrated k -> exposure_steps_kept k X.
Proof. exact (fun k X wf p => plain_steps wf p). Qed.
Print Assumptions C24_plain.

(** The base kernel exists, and construction succeeds (see C33 for the names). *)

Theorem C24_base_defined : forall k, wf_integrated k -> exists b, base_kernel k = Some b.
Proof. exact wf_integrated_base. Qed.
Print Assumptions C24_base_defined.

Theorem C24_defined : forall k X diag mean sa y, wf_integrated k ->
  valid_exposures (instruments k) X diag y -> default_integrated_solver sa -> names_ok k ->
  exists g, gaussian_process smolgp_ops k X diag mean sa = inr g.
Proof. exact (fun k X diag mean sa y wf ve hs nk => int_defined wf mean hs ve nk). Qed.
Print Assumptions C24_defined.

(** Exposures of one instrument that overlap (a point inside an exposure) are accepted, and the
    log density returned for them is wrong: the reset of the second discards part of the first. *)

Theorem C24_overlap_refuted : exists k b X diag y g,
  [/\ wf_integrated k, base_kernel k = Some b, plain_integrated k, size y = num_coords X &
      size (variances diag (num_coords X)) = num_coords X] /\
  (forall i, (i < num_coords X)%N -> 0 <= len (exposure X i) /\ (inst_of (exposure X i) < instruments k)%N /\
     0 < nth 0 (variances diag (num_coords X)) i) /\
  gaussian_process smolgp_ops k X diag None NoSolver = inr g /\
  exists l, gp_log_probability smolgp_ops g y = inr (Fin l) /\
    l <> log_normal (CT 0) (integrated_cov b) (coord_list X) (variances diag (num_coords X)) y.
Proof. exact overlap_refuted. Qed.
Print Assumptions C24_overlap_refuted.

Example C24_ex : wf_integrated k_int /\ base_kernel k_int = Some b_int /\ plain_integrated k_int /\
  valid_exposures (instruments k_int) X_int diag_int y_int /\ names_ok k_int /\
  default_integrated_solver NoSolver.
Proof.
exact (conj k_int_wf (conj k_int_base (conj k_int_plain (conj X_int_valid
  (conj k_int_names (or_introl Logic.eq_refl)))))).
Qed.

Example C24_ex_sho : wf_integrated k_isho /\
  valid_exposures (instruments k_isho) X_isho (Some (Scalar 1)) [:: 1; 2] /\
  exposure_steps_kept k_isho X_isho /\ names_ok k_isho.
Proof. exact (conj k_isho_wf (conj X_isho_valid (conj X_isho_kept k_isho_names))). Qed.
