(** What it means for a state-space model to describe a stationary Gaussian
    process, and the covariance function it has. *)
From mathcomp Require Import all_ssreflect all_algebra.
From Verif.Prelude Require Import Psd.
From Verif.Model Require Import Ssm.
Set Implicit Arguments.
Unset Strict Implicit.
Unset Printing Implicit Defensive.
Import Order.TTheory GRing.Theory Num.Theory.
Local Open Scope ring_scope.

Section Markov.
Variables (F : realFieldType) (k : ssm F).

(** A stationary linear-Gaussian state-space model. *)
Record valid_ssm : Prop := ValidSsm {
  vs_tshift : forall a b, strans k a b = strans k 0 (b - a);
  vs_qshift : forall a b, snoise k a b = snoise k 0 (b - a);
  vs_id : strans k 0 0 = 1%:M;
  vs_semi : forall a b, 0 <= a -> 0 <= b ->
     strans k 0 (a + b) = strans k 0 b *m strans k 0 a;
  vs_unit : forall a, 0 <= a -> strans k 0 a \in unitmx;
  vs_pinf : pdmx (spinf k);
  vs_noise : forall a, 0 <= a ->
     snoise k 0 a = spinf k - strans k 0 a *m spinf k *m (strans k 0 a)^T;
  vs_qpsd : forall a, 0 <= a -> psdmx (snoise k 0 a)
}.

(** Covariance of the stationary state process: Cov(x(s), x(t)). *)
Definition state_cov (s t : F) : 'M[F]_(sdim k) :=
  if s < t then spinf k *m (strans k 0 (t - s))^T
  else strans k 0 (s - t) *m spinf k.

(** Covariance of the observed process h(t) x(t). *)
Definition obs_cov (s t : F) : F :=
  (sobs k s *m state_cov s t *m (sobs k t)^T) 0 0.

(** Covariance of the state at s with the observations at ts. *)
Definition state_obs_cov (s : F) (ts : seq F) : 'M[F]_(sdim k, size ts) :=
  \matrix_(a, j) (state_cov s ts`_j *m (sobs k ts`_j)^T) a 0.

End Markov.
