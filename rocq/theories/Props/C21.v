(** C21: ExpSineSquared is the documented periodic kernel up to its stated error bound. *)
From Coq Require Import Reals String.
From mathcomp Require Import all_ssreflect all_algebra.
From Verif.Prelude Require Import Rstruct.
From Verif.Spec Require Import Cov.
From Verif.Model Require Import Array BaseKernels IntegratedKernels Kernel.
From Verif.Proofs Require Import PeriodicThms.
Local Open Scope R_scope.

(** The claim as stated is
      forall P > 0, g > 0, s, J >= 1, X1, X2, v, kernel_evaluate (ExpSineSquared P g s J) X1 X2 = v ->
      |v - s^2 exp(-g sin^2(PI r / P))| <= s^2 * error_bound()
    with error_bound() = exp(1 - 2/g) / (J+1)!.  It is false, already for the automatic order: *)
Theorem C21_error_bound_refuted : exists g s v, 0 < g /\
  kernel_evaluate false (ExpSineSquared 1 g s None "k"%string) (CT 0) (CT 0) = inr v /\
  s ^ 2 * ess_error_bound g (ess_order g None) < Rabs (v - cov_periodic 1 g s 0).
Proof. exact thm_ess_bound_refuted. Qed.
Print Assumptions C21_error_bound_refuted.

(** and no number of terms repairs it: every J fails for every small enough gamma, at every
    period, amplitude and time. *)
Theorem C21_error_bound_every_order_refuted : forall J, (0 < J)%N ->
  exists g0, 0 < g0 /\
  forall g P s order nm X v, 0 < g -> g <= g0 -> s <> 0 -> order <> Some 0%N -> ess_order g order = J ->
  kernel_evaluate false (ExpSineSquared P g s order nm) X X = inr v ->
  s ^ 2 * ess_error_bound g J < Rabs (v - cov_periodic P g s 0).
Proof. exact thm_ess_bound_fails. Qed.
Print Assumptions C21_error_bound_every_order_refuted.

(** What does hold: the error is at most s^2 (g/2)^m / m!, m = min(J, 100), at all parameters and
    times.  (100 is twice the number of terms kept of each Bessel series, so that past a hundred
    periodic terms the Bessel truncation is what limits the error.)  Missing from the claim: the
    bound that error_bound() returns, which is the one refuted above. *)
Theorem C21_error_partial : forall P g s order nm X1 X2 v, 0 < g -> order <> Some 0%N ->
  kernel_evaluate false (ExpSineSquared P g s order nm) X1 X2 = inr v ->
  let r := Rabs (coord_to_sortable X1 - coord_to_sortable X2) in
  let m := Nat.min (ess_order g order) 100 in
  Rabs (v - cov_periodic P g s r) <= s ^ 2 * ((g / 2) ^ m / INR (fact m)).
Proof. exact thm_ess_error. Qed.
Print Assumptions C21_error_partial.

Example C21_ex :
  exists v, kernel_evaluate false (ExpSineSquared 1 1 1 None "k"%string) (CT 0) (CT (1 / 4)) = inr v /\
  ess_order 1 None = 4%N /\ Rabs (v - exp (- (1 / 2))) <= 1 / 384.
Proof. exact ess_example. Qed.
