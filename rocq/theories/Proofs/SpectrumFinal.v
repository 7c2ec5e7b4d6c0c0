(** Power spectral densities of kernel expressions. *)
From Coq Require Import Reals Lra String.
From mathcomp Require Import all_ssreflect all_algebra.
From Coquelicot Require Import Coquelicot.
From mathcomp.real_closed Require Import complex.
From Verif.Prelude Require Import Rstruct Psd.
From Verif.Spec Require Import Expm Lti WfKernel Spectra.
From Verif.Model Require Import Array BaseKernels Kernel Spectrum.
From Verif.Proofs Require Import Leaves KernelLti Evaluate Spectrum SpectrumFourier SpectrumThms SpectrumMore SpectrumKernel.
Set Implicit Arguments.
Unset Strict Implicit.
Unset Printing Implicit Defensive.
Import Order.TTheory GRing.Theory Num.Theory.
Local Open Scope R_scope.

Lemma psd_valueE m w v : psd_value m w = Some v -> psd_matrix m w \in unitmx /\ v = psd_at m w.
Proof. by rewrite /psd_value; case: ifP => // u [<-]. Qed.
Lemma psd_some m w : defined_at m w -> psd_value m w = Some (psd_at m w).
Proof. by rewrite /psd_value /defined_at => ->. Qed.

Lemma thm_psd_nonneg k w v : wf_kernel k -> sharp_kernel k -> psd_value (denote k) w = Some v ->
  complex.Im (psd_complex (denote k) w) = 0 /\ 0 <= v.
Proof.
move=> wf sh /psd_valueE[u ->]; have hd := kernel_declared wf sh.
have [e /RleP h] := psd_nonneg (W_psd hd).1 u (W_psd hd); split; first by rewrite e.
by apply: Rdiv_le_0_compat => //; have := PI_RGT_0; lra.
Qed.

Lemma thm_psd_sum k1 k2 w :
  psd_value (denote (Sum k1 k2)) w =
  match psd_value (denote k1) w, psd_value (denote k2) w with
  | Some v1, Some v2 => Some (v1 + v2)
  | _, _ => None
  end.
Proof.
rewrite /psd_value /= psd_sum_unit; case: ifP => /= [/andP[u1 u2]|].
  rewrite u1 u2; congr Some; rewrite /psd_at (psd_sum_complex u1 u2).2.
  case: (psd_complex _ _) (psd_complex _ _) => [a b] [c d] /=; toR; rewrite /Rdiv; ring.
by case: ifP => //= _ ->.
Qed.

Lemma thm_psd_exp l s nm w : 0 < l -> s <> 0 -> psd_value (denote (Exp l s nm)) w = Some (spectrum_exp l s w).
Proof. by move=> l0 s0; rewrite psd_some ?exp_spectrum //; apply: exp_defined. Qed.
Lemma thm_psd_m32 l s nm w : 0 < l -> s <> 0 -> psd_value (denote (Matern32 l s nm)) w = Some (spectrum_matern32 l s w).
Proof. by move=> l0 s0; rewrite psd_some ?m32_spectrum //; apply: m32_defined. Qed.
Lemma thm_psd_m52 l s nm w : 0 < l -> s <> 0 -> psd_value (denote (Matern52 l s nm)) w = Some (spectrum_matern52 l s w).
Proof. by move=> l0 s0; rewrite psd_some ?m52_spectrum //; apply: m52_defined. Qed.
Lemma thm_psd_sho w0 q s nm w : 0 < w0 -> 0 < q ->
  psd_value (denote (SHO w0 q s nm)) w = Some (spectrum_sho w0 q s w).
Proof. by move=> h1 h2; rewrite psd_some ?sho_spectrum //; apply: sho_defined. Qed.

Lemma thm_psd_fourier k w : wf_kernel k -> sharp_kernel k -> damped k ->
  exists v, psd_value (denote k) w = Some v /\
  spectral_density_of (fun r => evaluate (denote k) (CT 0) (CT r)) w v.
Proof.
move=> wf sh d; have hd := kernel_declared wf sh; have dc := damped_decays wf sh d.
have u := decays_defined w hd dc.
exists (psd_at (denote k) w); split; first exact: psd_some.
by apply: psd_fourier => // X Y; apply: const_obsP (damped_const d).
Qed.

(** ** Undamped kernels *)
Lemma det2_zero (A : 'M[complex R]_2) : (\det A = A 0 0 * A 1 1 - A 0 1 * A 1 0)%R.
Proof.
rewrite (expand_det_row _ ord0) !big_ord_recl big_ord0 addr0 /cofactor !det_mx11 !mxE /=.
rewrite expr0 expr1 !mul1r mulN1r mulrN; congr (_ * _ - _ * _)%R; congr (A _ _); exact: val_inj.
Qed.
Lemma cosine_singular l s nm : psd_value (denote (Cosine l s nm)) (2 * PI / l) = None.
Proof.
rewrite /psd_value unitmxE det2_zero (_ : (_ - _)%R = 0%R) ?unitr0 //.
rewrite !mxE /=; apply/eqP; rewrite eq_complex /=.
by apply/andP; split; apply/eqP; toR; ring.
Qed.

Lemma constant_singular s nm : psd_value (denote (Constant s nm)) 0 = None.
Proof.
rewrite /psd_value unitmxE (_ : (\det _)%R = 0%R) ?unitr0 // det_mx11.
rewrite !mxE /=; apply/eqP; rewrite eq_complex /=.
by apply/andP; split; apply/eqP; toR; ring.
Qed.
Lemma thm_psd_undefined : exists k w, wf_kernel k /\ sharp_kernel k /\ psd_value (denote k) w = None.
Proof.
exists (Cosine 1 1 "k"%string), (2 * PI / 1); rewrite cosine_singular; split=> //=; lra.
Qed.

Definition psd_k : kernel :=
  Sum (SHO 2 3 1 "a"%string) (Product (Exp 1 2 "b"%string) (Cosine 3 1 "c"%string)).
Lemma psd_k_ok : wf_kernel psd_k /\ sharp_kernel psd_k /\ damped psd_k.
Proof.
split; first by rewrite /=; lra.
split; last by rewrite /=; intuition.
split=> //; left; rewrite /allclose; apply/RlebP.
by rewrite !Rabs_pos_eq; lra.
Qed.
