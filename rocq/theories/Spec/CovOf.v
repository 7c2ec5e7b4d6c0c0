(** The covariance function that a kernel expression is documented to have. *)
From Coq Require Import Reals.
From Verif.Prelude Require Import Rstruct.
From Verif.Model Require Import Array BaseKernels Kernel.
From Verif.Spec Require Import Cov.
Local Open Scope R_scope.

(** Kernels whose class documentation states a covariance function; an SHO whose
    quality factor is not 1/2 must not be one that jnp.allclose(quality, 1/2)
    takes for 1/2.  (ExpSineSquared is only an approximation, see C21.) *)
Fixpoint documented (k : kernel) : Prop :=
  match k with
  | Constant _ _ | Exp _ _ _ | Matern32 _ _ _ | Matern52 _ _ _ | Cosine _ _ _ => True
  | SHO _ q _ _ => q = 1 / 2 \/ allclose q (1 / 2) = false
  | Scale _ k _ => documented k
  | Sum k1 k2 | Product k1 k2 => documented k1 /\ documented k2
  | _ => False
  end.

(** The documented covariance as a function of the lag r; [*] and [+] are read as
    in the mathematical expression. *)
Fixpoint covariance (k : kernel) (r : R) : R :=
  match k with
  | Constant s _ => cov_constant s r
  | Exp l s _ => cov_exp l s r
  | Matern32 l s _ => cov_matern32 l s r
  | Matern52 l s _ => cov_matern52 l s r
  | Cosine l s _ => cov_cosine l s r
  | SHO w q s _ =>
      if Req_EM_T q (1 / 2) then cov_sho_critical w s r
      else if Rlt_dec (1 / 2) q then cov_sho_under w q s r else cov_sho_over w q s r
  | Scale a k _ => a * covariance k r
  | Sum k1 k2 => covariance k1 r + covariance k2 r
  | Product k1 k2 => covariance k1 r * covariance k2 r
  | _ => 0
  end.
