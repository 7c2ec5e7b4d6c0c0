(** C20: power spectral densities. *)
From Coq Require Import Reals String.
From mathcomp Require Import all_ssreflect all_algebra.
From mathcomp.real_closed Require Import complex.
From Verif.Prelude Require Import Rstruct.
From Verif.Spec Require Import WfKernel Spectra.
From Verif.Model Require Import Array BaseKernels Kernel Spectrum.
From Verif.Proofs Require Import SpectrumFinal.
Local Open Scope R_scope.

(** Wherever it has a value, psd is real before .real is taken, and non-negative. *)
Theorem C20_real_nonneg : forall k w v, wf_kernel k -> sharp_kernel k -> psd_value (denote k) w = Some v ->
  complex.Im (psd_complex (denote k) w) = 0 /\ 0 <= v.
Proof. exact thm_psd_nonneg. Qed.
Print Assumptions C20_real_nonneg.

(** The psd of a sum is the sum of the psds, and has a value exactly where both have one. *)
Theorem C20_sum : forall k1 k2 w,
  psd_value (denote (Sum k1 k2)) w =
  match psd_value (denote k1) w, psd_value (denote k2) w with
  | Some v1, Some v2 => Some (v1 + v2)
  | _, _ => None
  end.
Proof. exact thm_psd_sum. Qed.
Print Assumptions C20_sum.

(** The rational spectra, at every frequency. *)
Theorem C20_exp : forall l s nm w, 0 < l -> s <> 0 ->
  psd_value (denote (Exp l s nm)) w = Some (spectrum_exp l s w).
Proof. exact thm_psd_exp. Qed.
Print Assumptions C20_exp.
Theorem C20_matern32 : forall l s nm w, 0 < l -> s <> 0 ->
  psd_value (denote (Matern32 l s nm)) w = Some (spectrum_matern32 l s w).
Proof. exact thm_psd_m32. Qed.
Print Assumptions C20_matern32.
Theorem C20_matern52 : forall l s nm w, 0 < l -> s <> 0 ->
  psd_value (denote (Matern52 l s nm)) w = Some (spectrum_matern52 l s w).
Proof. exact thm_psd_m52. Qed.
Print Assumptions C20_matern52.
Theorem C20_sho : forall w0 q s nm w, 0 < w0 -> 0 < q ->
  psd_value (denote (SHO w0 q s nm)) w = Some (spectrum_sho w0 q s w).
Proof. exact thm_psd_sho. Qed.
Print Assumptions C20_sho.

(** Every kernel built from damped ones has a psd at every frequency, and it is the Fourier
    transform of the covariance that the same kernel evaluates to. *)
Theorem C20_fourier : forall k w, wf_kernel k -> sharp_kernel k -> damped k ->
  exists v, psd_value (denote k) w = Some v /\
  spectral_density_of (fun r => evaluate (denote k) (CT 0) (CT r)) w v.
Proof. exact thm_psd_fourier. Qed.
Print Assumptions C20_fourier.

(** "At all frequencies" fails for undamped kernels: Cosine has no value at its own frequency
    (the matrix to invert is singular), nor has Constant at 0. *)
Theorem C20_everywhere_refuted : exists k w, wf_kernel k /\ sharp_kernel k /\ psd_value (denote k) w = None.
Proof. exact thm_psd_undefined. Qed.
Print Assumptions C20_everywhere_refuted.
Theorem C20_cosine_singular : forall l s nm, psd_value (denote (Cosine l s nm)) (2 * PI / l) = None.
Proof. exact cosine_singular. Qed.
Print Assumptions C20_cosine_singular.
Theorem C20_constant_singular : forall s nm, psd_value (denote (Constant s nm)) 0 = None.
Proof. exact constant_singular. Qed.
Print Assumptions C20_constant_singular.

(** A kernel that meets the hypotheses: SHO + Exp * Cosine. *)
Example C20_ex : wf_kernel psd_k /\ sharp_kernel psd_k /\ damped psd_k.
Proof. exact psd_k_ok. Qed.
