(** C46: Matern(nu = 1/2, 3/2, 5/2) agrees with Exp, Matern32, Matern52. *)
From Coq Require Import Reals String.
From mathcomp Require Import all_ssreflect all_algebra.
From Verif.Prelude Require Import Rstruct Psd.
From Verif.Spec Require Import Expm Gp Lti WfKernel Cov CovOf.
From Verif.Model Require Import Array BaseKernels IntegratedKernels Kernel.
From Verif.Proofs Require Import Lti KernelProps KernelThms.
Import GRing.Theory.
Local Open Scope R_scope.

Theorem C46_matern12 : forall scale sigma, 0 < scale -> sigma <> 0 ->
  let m := denote (Matern 0 scale sigma) in
  let m' := denote (Exp scale sigma "") in
  mF m = mF m' /\ mL m = mL m' /\ mQc m = mQc m' /\ mPinf m = mPinf m' /\
  (forall X, mH m X = mH m' X) /\
  (forall X1 X2, mA m X1 X2 = mA m' X1 X2 /\ mQ m X1 X2 = mQ m' X1 X2 /\
     kernel_evaluate false (Matern 0 scale sigma) X1 X2
     = kernel_evaluate false (Exp scale sigma "") X1 X2).
Proof. exact matern0_agrees. Qed.
Print Assumptions C46_matern12.

Theorem C46_matern32 : forall scale sigma, 0 < scale -> sigma <> 0 ->
  let m := denote (Matern 1 scale sigma) in
  let m' := denote (Matern32 scale sigma "") in
  mF m = mF m' /\ mL m = mL m' /\ mQc m = mQc m' /\ mPinf m = mPinf m' /\
  (forall X, mH m X = mH m' X) /\
  (forall X1 X2, mA m X1 X2 = mA m' X1 X2 /\ mQ m X1 X2 = mQ m' X1 X2 /\
     kernel_evaluate false (Matern 1 scale sigma) X1 X2
     = kernel_evaluate false (Matern32 scale sigma "") X1 X2).
Proof. exact matern1_agrees. Qed.
Print Assumptions C46_matern32.

Theorem C46_matern52 : forall scale sigma, 0 < scale -> sigma <> 0 ->
  let m := denote (Matern 2 scale sigma) in
  let m' := denote (Matern52 scale sigma "") in
  mF m = mF m' /\ mL m = mL m' /\ mQc m = mQc m' /\ mPinf m = mPinf m' /\
  (forall X, mH m X = mH m' X) /\
  (forall X1 X2, mA m X1 X2 = mA m' X1 X2 /\ mQ m X1 X2 = mQ m' X1 X2 /\
     kernel_evaluate false (Matern 2 scale sigma) X1 X2
     = kernel_evaluate false (Matern52 scale sigma "") X1 X2).
Proof. exact matern2_agrees. Qed.
Print Assumptions C46_matern52.

Example C46_ex : 0 < 2 /\ IZR 3 <> IZR 0.
Proof. split; [exact Rlt_0_2 | exact (Rgt_not_eq 3 0 (IZR_lt 0 3 Logic.eq_refl))]. Qed.
