(** Sums of integrated and instantaneous kernels. *)
From Coq Require Import Reals.
From mathcomp Require Import all_ssreflect all_algebra.
From Verif.Prelude Require Import Rstruct.
From Verif.Spec Require Import WfKernel CovOf WfIntegrated IntCov Exposures.
From Verif.Model Require Import BaseKernels Kernel Frontend.
Set Implicit Arguments.
Unset Strict Implicit.
Unset Printing Implicit Defensive.
Local Open Scope R_scope.

(** Integrated summands as in [wf_integrated]; the other summands are documented kernels with
    positive parameters, without Constant (whose transition_matrix raises, C11). *)
Fixpoint wf_mixed (k : kernel) : Prop :=
  match k with
  | Sum k1 k2 => wf_mixed k1 /\ wf_mixed k2
  | _ => match integrated_of k with
         | Some (b, _) => wf_kernel b /\ sharp_kernel b
         | None => wf_kernel k /\ documented k /\ no_constant k
         end
  end.

(** Some summand is integrated. *)
Fixpoint has_integrated (k : kernel) : Prop :=
  match k with
  | Sum k1 k2 => has_integrated k1 \/ has_integrated k2
  | _ => integrated_of k <> None
  end.

(** Every integrated summand has a state for instruments 0 to n-1. *)
Fixpoint serves (n : nat) (k : kernel) : Prop :=
  match k with
  | Sum k1 k2 => serves n k1 /\ serves n k2
  | _ => match integrated_of k with Some (_, n') => (n <= n')%N | None => True end
  end.

(** The covariance of two measurements when integrated summands are averaged over the
    exposures and the others are read at the instant [at_ X] of each. *)
Fixpoint mixed_cov (at_ : coord -> R) (k : kernel) (X X' : coord) : R :=
  match k with
  | Sum k1 k2 => mixed_cov at_ k1 X X' + mixed_cov at_ k2 X X'
  | _ => match integrated_of k with
         | Some (b, _) => integrated_cov b X X'
         | None => covariance k (Rabs (at_ X - at_ X'))
         end
  end.

(** No entry of the process noise over dt is replaced by 0, as in [all_noise_kept]. *)
Fixpoint mixed_noise_kept (dt : R) (k : kernel) : Prop :=
  match k with
  | Sum k1 k2 => mixed_noise_kept dt k1 /\ mixed_noise_kept dt k2
  | _ => match integrated_of k with
         | Some (b, _) => noise_kept dt b /\ integral_noise_kept dt k
         | None => noise_kept dt k
         end
  end.
Definition mixed_steps_kept (k : kernel) (X : coords) : Prop :=
  forall s s', boundary X s -> boundary X s' -> s <= s' ->
    (forall u, boundary X u -> ~ (s < u /\ u < s')) -> mixed_noise_kept (s' - s) k.
