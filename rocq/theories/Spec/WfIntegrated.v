(** Integrated kernels: the instantaneous kernel they integrate, and when their
    process noise is not rounded. *)
From Coq Require Import Reals.
From mathcomp Require Import all_ssreflect all_algebra.
From Verif.Prelude Require Import Rstruct.
From Verif.Spec Require Import WfKernel.
From Verif.Model Require Import Array BaseKernels IntegratedKernels Kernel.
Set Implicit Arguments.
Unset Strict Implicit.
Unset Printing Implicit Defensive.
Local Open Scope R_scope.

(** The kernel of the process that is integrated, and the number of instruments. *)
Definition integrated_of (k : kernel) : option (kernel * nat) :=
  match k with
  | IntegratedSHO w q sigma n name => Some (SHO w q sigma name, n)
  | IntegratedExp scale sigma n name => Some (Exp scale sigma name, n)
  | IntegratedMatern32 scale sigma n name => Some (Matern32 scale sigma name, n)
  | IntegratedMatern52 scale sigma n name => Some (Matern52 scale sigma name, n)
  | IntegratedCosine scale sigma n name => Some (Cosine scale sigma name, n)
  | _ => None
  end.

(** The noise blocks of IntegratedSHO over the time difference dt are not replaced by 0
    because they are below 1e-14 (integrated.py:411-413, underdamped case only). *)
Definition integral_noise_kept (dt : R) (k : kernel) : Prop :=
  match k with
  | IntegratedSHO w q sigma _ _ => 1 / 2 < q -> ~~ allclose q (1 / 2) ->
      (forall i j, isho_Q12_raw w q sigma dt i j = 0
                   \/ / 10 ^ 14 <= Rabs (isho_Q12_raw w q sigma dt i j)) /\
      (isho_Q22_raw w q sigma dt = 0 \/ / 10 ^ 14 <= Rabs (isho_Q22_raw w q sigma dt))
  | _ => True
  end.
