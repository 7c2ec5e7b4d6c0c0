(** C30: the dense IntegratedSHOKernel is the double integral of the SHO kernel. *)
From Coq Require Import Reals Lra.
From mathcomp Require Import all_ssreflect.
From Verif.Spec Require Import Cov IntCov DenseCov.
From Verif.Model Require Import BaseKernels Kernel Dense.
From Verif.Proofs Require Import DenseThms DenseRefuted.
Local Open Scope R_scope.

(** Coordinates are triples (t, delta, instid); all configurations of the two exposures, lengths
    that the kernel does not round to 0 ([lengths_kept]). *)

Theorem C30_evaluate_partial : forall S w Q rho tau sig p t1 d1 i1 t2 d2 i2, 0 < S -> 0 < w -> 1 / 2 < Q ->
  dense_init (Some S) (Some w) (Some Q) rho tau sig = inr p -> lengths_kept (2 * PI / w) d1 d2 ->
  integrated_evaluate p (D3 t1 d1 i1) (D3 t2 d2 i2)
  = inr (averaged_sho w Q (sqrt (S * w * Q)) t1 d1 t2 d2).
Proof. exact thm_SwQ. Qed.
Print Assumptions C30_evaluate_partial.

(** The other parametrization; the process is underdamped when tau > rho / (2 pi). *)

Theorem C30_rho_tau_partial : forall rho tau sig p t1 d1 i1 t2 d2 i2, 0 < rho -> rho / (2 * PI) < tau ->
  dense_init None None None (Some rho) (Some tau) (Some sig) = inr p -> lengths_kept rho d1 d2 ->
  integrated_evaluate p (D3 t1 d1 i1) (D3 t2 d2 i2)
  = inr (averaged_sho (2 * PI / rho) (PI * tau / rho) sig t1 d1 t2 d2).
Proof. exact thm_rts. Qed.
Print Assumptions C30_rho_tau_partial.

(** The docstring also offers pairs (t, delta), but they are read as (t, instid). *)

Theorem C30_pair_refuted : exists S w Q p t1 d1 t2 d2, 0 < S /\ 0 < w /\ 1 / 2 < Q /\
  dense_init (Some S) (Some w) (Some Q) None None None = inr p /\ lengths_kept (2 * PI / w) d1 d2 /\
  integrated_evaluate p (D2 t1 d1) (D2 t2 d2)
    <> inr (averaged_sho w Q (sqrt (S * w * Q)) t1 d1 t2 d2).
Proof. exact pair_refuted. Qed.
Print Assumptions C30_pair_refuted.

(** Without [lengths_kept] the values are approximations. *)

Theorem C30_short_refuted : exists S w Q p t1 d1 t2 d2, 0 < S /\ 0 < w /\ 1 / 2 < Q /\
  dense_init (Some S) (Some w) (Some Q) None None None = inr p /\ 0 < d1 /\ d2 = 0 /\
  integrated_evaluate p (D3 t1 d1 0) (D3 t2 d2 0)
    <> inr (averaged_sho w Q (sqrt (S * w * Q)) t1 d1 t2 d2).
Proof. exact short_refuted. Qed.
Print Assumptions C30_short_refuted.

(** A point inside an exposure longer than the period. *)
Example C30_ex : 0 < 1 /\ 0 < 2 * PI /\ 1 / 2 < 1 /\
  (exists p, dense_init (Some 1) (Some (2 * PI)) (Some 1) None None None = inr p) /\
  lengths_kept (2 * PI / (2 * PI)) 0 3.
Proof.
assert (h := PI_RGT_0).
assert (e : 2 * PI / (2 * PI) = 1) by (field; lra).
rewrite e; unfold lengths_kept.
assert (h8 : / 10 ^ 8 <= 3 / 1) by (simpl; lra).
assert (h4 : / 10 ^ 4 <= 3 / 1) by (simpl; lra).
refine (conj Rlt_0_1 (conj _ (conj _ (conj (ex_intro _ _ Logic.eq_refl)
  (conj (or_introl Logic.eq_refl) (conj (or_intror (conj _ h8)) (conj (fun _ => or_intror h4) _))))))); try lra.
Qed.
