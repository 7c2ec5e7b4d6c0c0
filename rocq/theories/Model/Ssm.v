(** Interface between kernels and solvers. *)
From mathcomp Require Import all_ssreflect all_algebra.
Set Implicit Arguments.
Unset Strict Implicit.
Unset Printing Implicit Defensive.
Import Order.TTheory GRing.Theory Num.Theory.
Local Open Scope ring_scope.

(** The part of StateSpaceModel (src/smolgp/kernels/base.py:50-249) that the
    instantaneous solvers use: kernel.dimension, kernel.observation_model,
    kernel.transition_matrix, kernel.process_noise and
    kernel.stationary_covariance().
    Simplification: coordinates are already scalar times, i.e.
    coord_to_sortable (base.py:76-85) has been applied. *)
Record ssm (F : realFieldType) := Ssm {
  sdim : nat;
  sobs : F -> 'M[F]_(1, sdim);
  strans : F -> F -> 'M[F]_sdim;
  snoise : F -> F -> 'M[F]_sdim;
  spinf : 'M[F]_sdim
}.

Section Eval.
Variables (F : realFieldType) (k : ssm F).

(** StateSpaceModel.evaluate, kernels/base.py:210-224:
      jnp.where(t1 < t2,
                h2 @ Pinf @ A(X1, X2).T @ h1.T,
                h1 @ A(X2, X1) @ Pinf @ h2.T) *)
Definition ssm_evaluate (t1 t2 : F) : F :=
  let h1 := sobs k t1 in
  let h2 := sobs k t2 in
  if t1 < t2 then (h2 *m spinf k *m (strans k t1 t2)^T *m h1^T) 0 0
  else (h1 *m strans k t2 t1 *m spinf k *m h2^T) 0 0.

(** StateSpaceModel.evaluate_diag, kernels/base.py:226-229. *)
Definition ssm_evaluate_diag (t : F) : F :=
  (sobs k t *m spinf k *m (sobs k t)^T) 0 0.

End Eval.
