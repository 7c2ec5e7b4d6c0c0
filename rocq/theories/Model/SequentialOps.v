(** StateSpaceSolver (src/smolgp/solvers/solver.py) as seen by gp.py. *)
From Coq Require Import Reals.
From mathcomp Require Import all_ssreflect all_algebra.
From Verif.Prelude Require Import Rstruct.
From Verif.Model Require Import Array Jax Ssm Sequential BaseKernels Kernel Frontend.
Set Implicit Arguments.
Unset Strict Implicit.
Unset Printing Implicit Defensive.

Section Ops.
Variable s : solver.
Let k := to_ssm (denote (sv_kernel s)).
(** t_states = kernel.coord_to_sortable(X), solver.py:43 *)
Let t := times (sv_X s).

(** What the traced code raises: A(0, Delta) with a traced Delta. *)
Definition traced_transition {A : Type} (a : A) : err + A :=
  match transition_raises false (sv_kernel s) with Some e => inl e | None => inr a end.

(** Kalman, solver.py:49-53; KalmanFilter, kalman.py:8-39. *)
Definition seq_kalman (y : seq R) (return_v_S : bool) : err + kalman_results (sdim_of s) :=
  let o := KalmanFilter k t y (sv_noise s) in
  traced_transition
    {| kr_mf := map (@o_m _ _) o; kr_Pf := map (@o_P _ _) o;
       kr_mp := map (@o_mp _ _) o; kr_Pp := map (@o_Pp _ _) o;
       kr_vS := if return_v_S then Some (map (@o_v _ _) o, map (@o_S _ _) o) else None |}.

(** condition, solver.py:58-84; the coordinates returned are an array of times. *)
Definition seq_solver_condition (y : seq R) (return_v_S : bool) : err + results (sdim_of s) :=
  let c := seq_condition k t y (sv_noise s) return_v_S in
  traced_transition
    {| r_coords := SCtimes (c_t c);
       r_mp := c_mp c; r_Pp := c_Pp c; r_mf := c_mf c; r_Pf := c_Pf c;
       r_ms := c_ms c; r_Ps := c_Ps c; r_vS := c_vS c |}.

(** predict, solver.py:86-232.  Line 118 unpacks the state coordinates into four:
    an array of N times raises a ValueError unless N = 4, and then [len] of the
    scalar t_states raises a TypeError. *)
Definition seq_solver_predict (X_test : coords) (r : results (sdim_of s)) :
    err + seq ('cV[R]_(sdim_of s) * 'M[R]_(sdim_of s)) :=
  match r_coords r with
  | SCtimes t => inl (if size t == 4%N then TypeError else ValueError)
  | SCtuple t _ _ _ =>
      let c := @Conditioned _ (sdim_of s) t (r_mp r) (r_Pp r) (r_mf r) (r_Pf r) (r_ms r) (r_Ps r) (r_vS r) in
      traced_transition (@seq_predict _ k c (times X_test))
  end.
End Ops.

Definition seq_ops : solver_ops :=
  {| so_init := fun _ _ => None;
     so_kalman := seq_kalman;
     so_condition := seq_solver_condition;
     so_predict := seq_solver_predict |}.
