(** Which kernel expressions are meant when a statement says "every kernel". *)
From Coq Require Import Reals.
From mathcomp Require Import all_ssreflect all_algebra.
From Verif.Prelude Require Import Rstruct Psd.
From Verif.Spec Require Import Expm Lti.
From Verif.Model Require Import Array BaseKernels IntegratedKernels Kernel.
Set Implicit Arguments.
Unset Strict Implicit.
Unset Printing Implicit Defensive.
Local Open Scope R_scope.

(** Instantaneous kernels with positive parameters; a user-defined kernel must be
    a stationary SDE. *)
Fixpoint wf_kernel (k : kernel) : Prop :=
  match k with
  | Constant sigma _ => sigma <> 0
  | SHO w q sigma _ => 0 < w /\ 0 < q /\ sigma <> 0
  | Exp scale sigma _ | Matern32 scale sigma _ | Matern52 scale sigma _
  | Matern _ scale sigma => 0 < scale /\ sigma <> 0
  | Cosine scale sigma _ => 0 < scale /\ sigma <> 0
  | PeriodicTerm _ omega scale => 0 < omega /\ 0 < scale
  | ExpSineSquared period gamma sigma order _ => 0 < period /\ 0 < gamma /\ sigma <> 0
  | Custom m _ => exists G B : 'M[R]_(md m), lti G B
  | Scale a k _ => 0 < a /\ wf_kernel k
  | Sum k1 k2 | Product k1 k2 => wf_kernel k1 /\ wf_kernel k2
  | IntegratedSHO _ _ _ _ _ | IntegratedExp _ _ _ _ | IntegratedMatern32 _ _ _ _
  | IntegratedMatern52 _ _ _ _ | IntegratedCosine _ _ _ _ => False
  end.

(** The SDE declared by the kernel (design_matrix, noise_effect_matrix, noise) is
    the one it uses: the quality factor of an SHO is not one that
    jnp.allclose(quality, 1/2) rounds to 1/2, ExpSineSquared and Custom declare
    their own noise. *)
Fixpoint sharp_kernel (k : kernel) : Prop :=
  match k with
  | SHO w q sigma _ => ~~ allclose q (1 / 2) \/ q = 1 / 2
  | Custom m _ => declared_lti m
  | Scale _ k _ => sharp_kernel k
  | Sum k1 k2 | Product k1 k2 => sharp_kernel k1 /\ sharp_kernel k2
  | _ => True
  end.

(** No entry of the process noise over the time difference dt is replaced by 0
    because it is below 1e-14 (SHO.process_noise does this in the underdamped
    case), and Scale, whose process noise is not scaled, is only applied with
    factor 1 or to a kernel without process noise. *)
Fixpoint noise_kept (dt : R) (k : kernel) : Prop :=
  match k with
  | SHO w q sigma _ => 1 / 2 < q -> ~~ allclose q (1 / 2) ->
      forall i j, sho_Q_underdamped_raw w q sigma dt i j = 0
                  \/ / 10 ^ 14 <= Rabs (sho_Q_underdamped_raw w q sigma dt i j)
  | Custom m _ => noise_exact_at m dt
  | Scale a k _ => noise_kept dt k /\ (a = 1 \/ mQ (denote k) (CT 0) (CT dt) = 0%R)
  | Sum k1 k2 | Product k1 k2 => noise_kept dt k1 /\ noise_kept dt k2
  | _ => True
  end.

(** The observation matrix does not depend on the coordinate: true of every
    instantaneous built-in kernel, an assumption on a user-defined one. *)
Fixpoint const_obs (k : kernel) : Prop :=
  match k with
  | Custom m _ => forall X Y, mH m X = mH m Y
  | Scale _ k _ => const_obs k
  | Sum k1 k2 | Product k1 k2 => const_obs k1 /\ const_obs k2
  | IntegratedSHO _ _ _ _ _ | IntegratedExp _ _ _ _ | IntegratedMatern32 _ _ _ _
  | IntegratedMatern52 _ _ _ _ | IntegratedCosine _ _ _ _ => False
  | _ => True
  end.

(** A user-defined kernel's declared matrices satisfy the Lyapunov equation. *)
Fixpoint declares_lyapunov (k : kernel) : Prop :=
  match k with
  | Custom m _ => (mF m *m mPinf m + mPinf m *m (mF m)^T
                   + mL m *m mQc m *m (mL m)^T = 0)%R
  | Scale _ k _ => declares_lyapunov k
  | Sum k1 k2 | Product k1 k2 => declares_lyapunov k1 /\ declares_lyapunov k2
  | _ => True
  end.

(** No subexpression is a Constant (whose transition_matrix raises). *)
Fixpoint no_constant (k : kernel) : Prop :=
  match k with
  | Constant _ _ => False
  | Scale _ k _ => no_constant k
  | Sum k1 k2 | Product k1 k2 => no_constant k1 /\ no_constant k2
  | _ => True
  end.

(** No subexpression is an Exp (whose transition_matrix raises on Python numbers). *)
Fixpoint no_exp (k : kernel) : Prop :=
  match k with
  | Exp _ _ _ | IntegratedExp _ _ _ _ => False
  | Scale _ k _ => no_exp k
  | Sum k1 k2 | Product k1 k2 => no_exp k1 /\ no_exp k2
  | _ => True
  end.
