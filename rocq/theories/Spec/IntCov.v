(** Covariances of measurements that average a stationary process over exposures. *)
From Coq Require Import Reals.
From mathcomp Require Import all_ssreflect.
From Coquelicot Require Import Coquelicot.
From Verif.Model Require Import BaseKernels Kernel.
From Verif.Spec Require Import WfKernel CovOf WfIntegrated.
Set Implicit Arguments.
Unset Strict Implicit.
Unset Printing Implicit Defensive.
Local Open Scope R_scope.

(** Midpoint, length and instrument of an exposure; a bare time is a point measurement. *)
Definition mid (X : coord) : R := match X with CT t => t | CX t _ _ => t end.
Definition len (X : coord) : R := match X with CT _ => 0 | CX _ d _ => d end.
Definition inst_of (X : coord) : nat := match X with CT _ => 0%N | CX _ _ i => i end.
Definition begin (X : coord) : R := mid X - len X / 2.
Definition finish (X : coord) : R := mid X + len X / 2.

(** The mean of f over an exposure, or its value for an exposure of length 0. *)
Definition exposure_mean (X : coord) (f : R -> R) : R :=
  if Rlt_dec 0 (len X) then RInt f (begin X) (finish X) / len X else f (mid X).

(** Covariance of the exposure means of a process whose covariance at lag r is kap r. *)
Definition mean_cov (kap : R -> R) (X1 X2 : coord) : R :=
  exposure_mean X1 (fun u => exposure_mean X2 (fun v => kap (u - v))).

(** Sums of integrated kernels: the process that is integrated. *)
Fixpoint base_kernel (k : kernel) : option kernel :=
  match k with
  | Sum k1 k2 => match base_kernel k1, base_kernel k2 with
                 | Some b1, Some b2 => Some (Sum b1 b2)
                 | _, _ => None
                 end
  | _ => match integrated_of k with Some (b, _) => Some b | None => None end
  end.

(** The covariance of two measurements of the integrated model k with base process b. *)
Definition integrated_cov (b : kernel) : coord -> coord -> R :=
  mean_cov (fun r => covariance b (Rabs r)).

(** The number of instruments every summand has a state for. *)
Fixpoint instruments (k : kernel) : nat :=
  match k with
  | Sum k1 k2 => minn (instruments k1) (instruments k2)
  | _ => match integrated_of k with Some (_, n) => n | None => 0%N end
  end.

(** Sums of integrated kernels whose base kernels have positive parameters (and a quality
    factor that jnp.allclose does not round to 1/2). *)
Fixpoint wf_integrated (k : kernel) : Prop :=
  match k with
  | Sum k1 k2 => wf_integrated k1 /\ wf_integrated k2
  | _ => match integrated_of k with
         | Some (b, _) => wf_kernel b /\ sharp_kernel b
         | None => False
         end
  end.

(** No entry of the process noise over dt is replaced by 0 for being below 1e-14. *)
Fixpoint all_noise_kept (dt : R) (k : kernel) : Prop :=
  match k with
  | Sum k1 k2 => all_noise_kept dt k1 /\ all_noise_kept dt k2
  | _ => match integrated_of k with
         | Some (b, _) => noise_kept dt b /\ integral_noise_kept dt k
         | None => True
         end
  end.
