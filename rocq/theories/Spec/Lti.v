(** Stationary linear stochastic differential equations
    dx = G x dt + dW with Cov(dW) = B dt and stationary covariance P. *)
From Coq Require Import Reals.
From mathcomp Require Import all_ssreflect all_algebra.
From Verif.Prelude Require Import Rstruct Psd.
From Verif.Spec Require Import Expm.
From Verif.Model Require Import BaseKernels.
Set Implicit Arguments.
Unset Strict Implicit.
Unset Printing Implicit Defensive.
Import Order.TTheory GRing.Theory Num.Theory.
Local Open Scope ring_scope.

(** The transition matrix and stationary covariance of [m] are those of the SDE
    (G, B), and its process noise depends on the time difference only. *)
Record lti (m : model) (G B : 'M[R]_(md m)) : Prop := Lti {
  lt_A : forall X1 X2, mA m X1 X2 = expm (lag X1 X2 *: G);
  lt_P : pdmx (mPinf m);
  lt_lyap : G *m mPinf m + mPinf m *m G^T + B = 0;
  lt_B : psdmx B;
  lt_Qlag : forall X1 X2, mQ m X1 X2 = mQ m (CT R0) (CT (lag X1 X2))
}.

(** [m] is a realisation of the SDE it declares (F, L, Qc). *)
Definition declared_lti (m : model) : Prop := lti (mF m) (mL m *m mQc m *m (mL m)^T).

(** The process noise that keeps the process stationary. *)
Definition exact_noise (m : model) (X1 X2 : coord) : 'M[R]_(md m) :=
  mPinf m - mA m X1 X2 *m mPinf m *m (mA m X1 X2)^T.

(** The process noise of [m] over the time difference dt is the exact one. *)
Definition noise_exact_at (m : model) (dt : R) : Prop :=
  mQ m (CT R0) (CT dt) = exact_noise m (CT R0) (CT dt).

(** [m] with the exact process noise. *)
Definition ideal (m : model) : model :=
  {| md := md m; mF := mF m; mp := mp m; mL := mL m; mQc := mQc m; mPinf := mPinf m;
     mH := mH m; mA := mA m; mQ := exact_noise m; mReset := mReset m |}.
