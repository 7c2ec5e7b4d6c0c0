(** Textbook power spectral densities (two sided, angular frequency, with the 1/(2 pi) on the
    spectrum: k(r) = int S(w) exp(i w r) dw), and the Fourier transform of a covariance function. *)
From Coq Require Import Reals.
From Coquelicot Require Import Coquelicot.
From Verif.Model Require Import Kernel.
Local Open Scope R_scope.

Definition spectrum_exp (l s w : R) : R := s ^ 2 * l / (PI * (1 + (l * w) ^ 2)).
Definition spectrum_matern32 (l s w : R) : R :=
  let lam := sqrt 3 / l in 2 * s ^ 2 * lam ^ 3 / (PI * (lam ^ 2 + w ^ 2) ^ 2).
Definition spectrum_matern52 (l s w : R) : R :=
  let lam := sqrt 5 / l in 8 * s ^ 2 * lam ^ 5 / (3 * PI * (lam ^ 2 + w ^ 2) ^ 3).
Definition spectrum_sho (w0 q s w : R) : R :=
  s ^ 2 * w0 ^ 3 / q / (PI * ((w ^ 2 - w0 ^ 2) ^ 2 + (w0 * w / q) ^ 2)).

(** [S] is the spectral density at [w] of the even covariance function [k]:
    (1 / 2 pi) int_{-oo}^{oo} k(r) exp(-i w r) dr = (1 / pi) int_0^oo k(r) cos(w r) dr. *)
Definition spectral_density_of (k : R -> R) (w S : R) : Prop :=
  is_lim (fun T => RInt (fun r => k r * cos (w * r)) 0 T / PI) p_infty S.

(** Correlations that neither grow nor die out: constants and periodic kernels. *)
Fixpoint steady (k : kernel) : Prop :=
  match k with
  | Constant _ _ | Cosine _ _ _ | PeriodicTerm _ _ _ | ExpSineSquared _ _ _ _ _ => True
  | Scale _ k _ => steady k
  | Sum k1 k2 | Product k1 k2 => steady k1 /\ steady k2
  | _ => False
  end.

(** Correlations that die out: sums of damped kernels, and products of a damped
    kernel with a damped or a steady one. *)
Fixpoint damped (k : kernel) : Prop :=
  match k with
  | Exp _ _ _ | Matern32 _ _ _ | Matern52 _ _ _ | SHO _ _ _ _ => True
  | Scale _ k _ => damped k
  | Sum k1 k2 => damped k1 /\ damped k2
  | Product k1 k2 => (damped k1 /\ damped k2) \/ (damped k1 /\ steady k2) \/ (steady k1 /\ damped k2)
  | _ => False
  end.
