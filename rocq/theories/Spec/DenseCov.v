(** What the docstrings of kernels/dense.py promise. *)
From Coq Require Import Reals.
From mathcomp Require Import all_ssreflect.
From Verif.Model Require Import BaseKernels Dense.
From Verif.Spec Require Import Cov IntCov.
Set Implicit Arguments.
Unset Strict Implicit.
Unset Printing Implicit Defensive.
Local Open Scope R_scope.

(** The SHO covariance at any lag, for a quality factor other than 1/2. *)
Definition sho_cov (w Q s r : R) : R :=
  if Rlt_dec (1 / 2) Q then cov_sho_under w Q s (Rabs r) else cov_sho_over w Q s (Rabs r).

(** The covariance of the averages of the SHO process over two exposures with midpoints t1, t2
    and lengths d1, d2. *)
Definition averaged_sho (w Q s t1 d1 t2 d2 : R) : R :=
  mean_cov (sho_cov w Q s) (CX t1 d1 0) (CX t2 d2 0).

(** The lengths are not short enough for the kernel to replace them by 0: with T the period,
    each is 0 or at least 1e-8 T, and if just one of them is 0 the other is at least 1e-4 T. *)
Definition lengths_kept (T d1 d2 : R) : Prop :=
  (d1 = 0 \/ 0 < d1 /\ / 10 ^ 8 <= d1 / T) /\ (d2 = 0 \/ 0 < d2 /\ / 10 ^ 8 <= d2 / T) /\
  (d1 = 0 -> d2 = 0 \/ / 10 ^ 4 <= d2 / T) /\ (d2 = 0 -> d1 = 0 \/ / 10 ^ 4 <= d1 / T).

(** The leaves of a tree of kernels: below sums only, or below sums and products. *)
Fixpoint all_leaves {A} (k : dtree A) : seq (dtree A) :=
  match k with
  | DLeaf _ => [:: k]
  | DSum k1 k2 => all_leaves k1 ++ all_leaves k2
  | DProd k1 k2 => all_leaves k1 ++ all_leaves k2
  end.
Fixpoint sum_leaves {A} (k : dtree A) : seq (dtree A) :=
  match k with
  | DSum k1 k2 => sum_leaves k1 ++ sum_leaves k2
  | _ => [:: k]
  end.
