(** Transformations of data sets and kernels under which the posterior is known. *)
From Coq Require Import Reals.
From mathcomp Require Import all_ssreflect all_algebra.
From Verif.Prelude Require Import Rstruct.
From Verif.Spec Require Import WfKernel Data.
From Verif.Model Require Import BaseKernels Kernel Frontend SequentialOps Gp.
Set Implicit Arguments.
Unset Strict Implicit.
Unset Printing Implicit Defensive.
Local Open Scope R_scope.

(** [g] is a GaussianProcess object for an instantaneous kernel [k] with covariance
    [kern], and data that meet the conditions of C01. *)
Record gp_of (k : kernel) (X : coords) (diag : option farray) (y : seq R)
    (kern : coord -> coord -> R) (g : gp) : Prop := GpOf {
  go_wf : wf_kernel k;
  go_const : const_obs k;
  go_data : valid_data X diag y;
  go_kept : steps_kept k (times X);
  go_kern : forall X1 X2, kernel_evaluate false k X1 X2 = inr (kern X1 X2);
  go_gp : exists mean sa, default_solver sa /\ gaussian_process smolgp_ops k X diag mean sa = inr g
}.

(** Test coordinates at which the process noise used by predict is exact. *)
Definition tests_kept (k : kernel) (X Xt : coords) : Prop :=
  forall x, List.In x (coord_list Xt) -> predict_kept k (times X) (coord_to_sortable x).

(** What the predictions at Xt are, whatever the dimension of the state. *)
Definition predicts (c : gp) (Xt : coords) (mu va : seq R) : Prop :=
  forall y', exists n, gp_predict smolgp_ops c (Some Xt) y' false None true
    = inr (existT prediction n (PMeanVar (squeeze mu) (Some (squeeze va)))).

(** A list without its entry p. *)
Definition without (T : Type) (p : nat) (s : seq T) : seq T := take p s ++ drop p.+1 s.

(** Time running backwards. *)
Definition mirror (a : R) (t : seq R) : seq R := rev [seq a - u | u <- t].

(** log N(v; m, s). *)
Definition log_normal1 (v m s : R) : R := - (1 / 2) * ((v - m) ^ 2 / s + ln s + ln (2 * PI)).

(** The kernel in another unit of the data: every standard deviation times c. *)
Fixpoint amplify (c : R) (k : kernel) : kernel :=
  match k with
  | Constant s nm => Constant (c * s) nm
  | SHO w q s nm => SHO w q (c * s) nm
  | Exp l s nm => Exp l (c * s) nm
  | Matern32 l s nm => Matern32 l (c * s) nm
  | Matern52 l s nm => Matern52 l (c * s) nm
  | Cosine l s nm => Cosine l (c * s) nm
  | Scale a k nm => Scale a (amplify c k) nm
  | Sum k1 k2 => Sum (amplify c k1) (amplify c k2)
  | Product k1 k2 => Product (amplify c k1) k2
  | k => k
  end.

(** The kernel in another unit of time: every length scale times a, every frequency
    divided by a. *)
Fixpoint dilate (a : R) (k : kernel) : kernel :=
  match k with
  | SHO w q s nm => SHO (w / a) q s nm
  | Exp l s nm => Exp (a * l) s nm
  | Matern32 l s nm => Matern32 (a * l) s nm
  | Matern52 l s nm => Matern52 (a * l) s nm
  | Cosine l s nm => Cosine (a * l) s nm
  | Scale b k nm => Scale b (dilate a k) nm
  | Sum k1 k2 => Sum (dilate a k1) (dilate a k2)
  | Product k1 k2 => Product (dilate a k1) (dilate a k2)
  | k => k
  end.
