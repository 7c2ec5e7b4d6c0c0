(** Changes of units and of the direction of time for integrated models. *)
From Coq Require Import Reals.
From mathcomp Require Import all_ssreflect all_algebra.
From Verif.Prelude Require Import Rstruct.
From Verif.Spec Require Import WfIntegrated IntCov Exposures Smoothable TestTimes Data.
From Verif.Model Require Import BaseKernels Kernel Frontend SequentialOps Gp.
Set Implicit Arguments.
Unset Strict Implicit.
Unset Printing Implicit Defensive.
Local Open Scope R_scope.

(** [g] is a GaussianProcess object for an integrated kernel [k] with base process [b], and
    exposures that meet the conditions of C24. *)
Record int_gp_of (k b : kernel) (X : coords) (diag : option farray) (y : seq R) (g : gp) : Prop := IntGpOf {
  io_wf : wf_integrated k;
  io_base : base_kernel k = Some b;
  io_data : valid_exposures (instruments k) X diag y;
  io_kept : exposure_steps_kept k X;
  io_gp : exists mean sa, default_integrated_solver sa /\ gaussian_process smolgp_ops k X diag mean sa = inr g
}.

(** The further conditions of C25, and of C26 at the times ts. *)
Definition smooth_of (k : kernel) (X : coords) : Prop := noisy_integrated k /\ smoothable X.
Definition int_tests_kept (k : kernel) (X : coords) (ts : seq R) : Prop :=
  forall u, List.In u ts -> test_kept k X u.

(** A zero of time a and a unit of time 1/|s|; s < 0 reverses the direction of time. *)
Definition clock (a s u : R) : R := a + s * u.
Definition clock_exposures (a s : R) (X : coords) : coords :=
  match X with
  | CTriple t d i => CTriple [seq clock a s u | u <- t] [seq Rabs s * l | l <- d] i
  | X => X
  end.

(** Every standard deviation times c. *)
Fixpoint int_amplify (c : R) (k : kernel) : kernel :=
  match k with
  | IntegratedSHO w q s n nm => IntegratedSHO w q (c * s) n nm
  | IntegratedExp l s n nm => IntegratedExp l (c * s) n nm
  | IntegratedMatern32 l s n nm => IntegratedMatern32 l (c * s) n nm
  | IntegratedMatern52 l s n nm => IntegratedMatern52 l (c * s) n nm
  | IntegratedCosine l s n nm => IntegratedCosine l (c * s) n nm
  | Sum k1 k2 => Sum (int_amplify c k1) (int_amplify c k2)
  | k => k
  end.

(** Every length scale times a, every frequency divided by a. *)
Fixpoint int_dilate (a : R) (k : kernel) : kernel :=
  match k with
  | IntegratedSHO w q s n nm => IntegratedSHO (w / a) q s n nm
  | IntegratedExp l s n nm => IntegratedExp (a * l) s n nm
  | IntegratedMatern32 l s n nm => IntegratedMatern32 (a * l) s n nm
  | IntegratedMatern52 l s n nm => IntegratedMatern52 (a * l) s n nm
  | IntegratedCosine l s n nm => IntegratedCosine (a * l) s n nm
  | Sum k1 k2 => Sum (int_dilate a k1) (int_dilate a k2)
  | k => k
  end.
