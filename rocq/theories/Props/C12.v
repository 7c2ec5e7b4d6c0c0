(** C12: the analytic transition matrices are the matrix exponential of the design matrix. *)
From Coq Require Import Reals String.
From mathcomp Require Import all_ssreflect all_algebra.
From Verif.Prelude Require Import Rstruct Psd.
From Verif.Spec Require Import Expm Gp Lti WfKernel Cov CovOf.
From Verif.Model Require Import Array BaseKernels IntegratedKernels Kernel.
From Verif.Proofs Require Import Lti KernelProps KernelThms.
Import GRing.Theory.
Local Open Scope R_scope.

Theorem C12_transition_is_expm : forall py k X1 X2 A, wf_kernel k -> sharp_kernel k ->
  kernel_transition py k X1 X2 = inr A ->
  A = expm ((coord_to_sortable X2 - coord_to_sortable X1)%R *: mF (denote k))%R.
Proof. exact transition_expm. Qed.
Print Assumptions C12_transition_is_expm.

Example C12_ex : wf_kernel k_example /\ sharp_kernel k_example
  /\ exists A, kernel_transition false k_example (CT 0) (CT 2) = inr A.
Proof.
split; [exact k_example_wf | split; [exact k_example_sharp | apply transition_defined; repeat split]].
Qed.

(** A quality factor close to but different from 1/2 is treated as 1/2. *)
Theorem C12_sho_band_refuted : exists k, wf_kernel k /\
  ~ (forall X1 X2 A, kernel_transition false k X1 X2 = inr A ->
       A = expm ((coord_to_sortable X2 - coord_to_sortable X1)%R *: mF (denote k))%R).
Proof. exact sho_band_refuted. Qed.
Print Assumptions C12_sho_band_refuted.
