(** C15: evaluate is the documented covariance function. *)
From Coq Require Import Reals String.
From mathcomp Require Import all_ssreflect all_algebra.
From Verif.Prelude Require Import Rstruct Psd.
From Verif.Spec Require Import Expm Gp Lti WfKernel Cov CovOf.
From Verif.Model Require Import Array BaseKernels IntegratedKernels Kernel.
From Verif.Proofs Require Import Lti KernelProps KernelThms.
Import GRing.Theory.
Local Open Scope R_scope.

(** [covariance] gives the documented formula of each class (Spec/Cov.v). *)
Theorem C15_evaluate_documented : forall py k X1 X2 v, wf_kernel k -> documented k ->
  kernel_evaluate py k X1 X2 = inr v ->
  v = covariance k (Rabs (coord_to_sortable X1 - coord_to_sortable X2)).
Proof. exact kernel_evaluate_covariance. Qed.
Print Assumptions C15_evaluate_documented.

Theorem C15_evaluate_symmetric : forall py k X1 X2, wf_kernel k -> const_obs k ->
  kernel_evaluate py k X1 X2 = kernel_evaluate py k X2 X1.
Proof. exact kernel_evaluate_sym. Qed.
Print Assumptions C15_evaluate_symmetric.

Theorem C15_evaluate_variance : forall l w q s n X, 0 < l -> 0 < w -> 0 < q -> s <> 0 ->
  q = 1 / 2 \/ allclose q (1 / 2) = false ->
  kernel_evaluate false (Exp l s n) X X = inr (s ^ 2) /\
  kernel_evaluate false (Matern32 l s n) X X = inr (s ^ 2) /\
  kernel_evaluate false (Matern52 l s n) X X = inr (s ^ 2) /\
  kernel_evaluate false (Cosine l s n) X X = inr (s ^ 2) /\
  kernel_evaluate false (SHO w q s n) X X = inr (s ^ 2).
Proof. exact evaluate_variances. Qed.
Print Assumptions C15_evaluate_variance.

Theorem C15_evaluate_defined : forall k X1 X2, no_constant k ->
  exists v, kernel_evaluate false k X1 X2 = inr v.
Proof. exact kernel_evaluate_defined. Qed.
Print Assumptions C15_evaluate_defined.

Example C15_ex : wf_kernel k_example /\ documented k_example /\ const_obs k_example
  /\ no_constant k_example.
Proof.
split; [exact k_example_wf | split; [exact k_example_documented | repeat split]].
Qed.

(** The underdamped formula printed in the SHO docstring is not the covariance. *)
Theorem C15_sho_docstring_refuted : exists w q s X1 X2, 0 < w /\ 1 / 2 < q /\ 0 < s /\
  kernel_evaluate false (SHO w q s "SHO") X1 X2
  <> inr (cov_sho_under_docstring w q s (Rabs (coord_to_sortable X1 - coord_to_sortable X2))).
Proof. exact sho_docstring_refuted. Qed.
Print Assumptions C15_sho_docstring_refuted.

(** For a quality factor within the tolerance of jnp.allclose around 1/2 the value is
    not the documented one either. *)
Theorem C15_sho_band_refuted : exists w q s X1 X2, 0 < w /\ 1 / 2 < q /\ 0 < s /\
  kernel_evaluate false (SHO w q s "SHO") X1 X2
  <> inr (cov_sho_under w q s (Rabs (coord_to_sortable X1 - coord_to_sortable X2))).
Proof. exact sho_band_value_refuted. Qed.
Print Assumptions C15_sho_band_refuted.

(** A user-defined kernel with an observation matrix that depends on the
    coordinate is not evaluated symmetrically. *)
Theorem C15_custom_asymmetric_refuted : exists k X1 X2, wf_kernel k /\ sharp_kernel k /\
  kernel_evaluate false k X1 X2 <> kernel_evaluate false k X2 X1.
Proof. exact custom_asymmetric_refuted. Qed.
Print Assumptions C15_custom_asymmetric_refuted.
