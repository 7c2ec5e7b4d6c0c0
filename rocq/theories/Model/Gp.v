(** The four solver classes as seen by gp.py. *)
From Coq Require Import Reals.
From mathcomp Require Import all_ssreflect all_algebra.
From Verif.Prelude Require Import Rstruct.
From Verif.Model Require Import Array Jax Ssm Sequential Parallel Integrated BaseKernels Kernel
  Frontend SequentialOps.
Set Implicit Arguments.
Unset Strict Implicit.
Unset Printing Implicit Defensive.

(** The fields of [results] from those of [conditioned]. *)
Definition results_of d (sc : state_coords) (c : conditioned [realFieldType of R] d) : results d :=
  {| r_coords := sc; r_mp := c_mp c; r_Pp := c_Pp c; r_mf := c_mf c; r_Pf := c_Pf c;
     r_ms := c_ms c; r_Ps := c_Ps c; r_vS := c_vS c |}.
Definition kalman_of d (c : conditioned [realFieldType of R] d) : kalman_results d :=
  {| kr_mf := c_mf c; kr_Pf := c_Pf c; kr_mp := c_mp c; kr_Pp := c_Pp c; kr_vS := c_vS c |}.
Definition drop_vS d (r : kalman_results d) : kalman_results d :=
  {| kr_mf := kr_mf r; kr_Pf := kr_Pf r; kr_mp := kr_mp r; kr_Pp := kr_Pp r; kr_vS := None |}.

(** ** ParallelStateSpaceSolver, solvers/parallel/solver.py *)
Section Par.
Variable s : solver.
Let k := to_ssm (denote (sv_kernel s)).
Let t := times (sv_X s).

(** Phi(0, 0) is called with Python numbers (parallel/kalman.py:59).  For a kernel of
    dimension 1 jnp.squeeze (lines 68, 72, 95, 99) turns b and eta into 0-d arrays:
    with several data [Ci @ etaj] (line 136) raises a ValueError, with one datum
    jnp.concatenate (line 187) raises a TypeError.  (No data: not modelled.) *)
Definition par_guard {A : Type} (a : A) : err + A :=
  match transition_raises true (sv_kernel s) with
  | Some e => inl e
  | None => if sdim_of s == 1%N then inl (if (size t <= 1)%N then TypeError else ValueError)
            else inr a
  end.

(** Kalman, parallel/solver.py:49-53 *)
Definition par_kalman (y : seq R) (return_v_S : bool) : err + kalman_results (sdim_of s) :=
  let r := kalman_of (par_condition k t y (sv_noise s)) in
  par_guard (if return_v_S then r else drop_vS r).

(** condition, parallel/solver.py:59-85: Kalman is always called with
    return_v_S=True, so return_v_S=False unpacks six values into four. *)
Definition par_solver_condition (y : seq R) (return_v_S : bool) : err + results (sdim_of s) :=
  r <-- par_guard (results_of (SCtimes t) (par_condition k t y (sv_noise s))) ;;
  if return_v_S then inr r else inl ValueError.

(** predict, parallel/solver.py:87-239, is that of the sequential solver except that
    it computes time differences from self.X[k] and X_test[ktest] (lines 153, 183),
    a TypeError for tuples.  Simplification: self.X is also read from the state
    coordinates, which are the same numbers for results of this solver. *)
Definition par_solver_predict (X_test : coords) (r : results (sdim_of s)) :
    err + seq ('cV[R]_(sdim_of s) * 'M[R]_(sdim_of s)) :=
  match r_coords r with
  | SCtimes t => inl (if size t == 4%N then TypeError else ValueError)
  | SCtuple _ _ _ _ =>
      if is_tuple (sv_X s) || is_tuple X_test then inl TypeError
      else seq_solver_predict X_test r
  end.
End Par.

Definition par_ops : solver_ops :=
  {| so_init := fun _ _ => None;
     so_kalman := par_kalman;
     so_condition := par_solver_condition;
     so_predict := par_solver_predict |}.

(** ** IntegratedStateSpaceSolver, solvers/integrated/solver.py *)

(** tmid, delta, instid = self.X (line 55): an array of three numbers unpacks, and
    len(tmid) then raises. *)
Definition int_init (_ : kernel) (X : coords) : option err :=
  match X with
  | CTriple _ _ _ => None
  | CPair _ _ => Some ValueError
  | CArray t => Some (if size t == 3%N then TypeError else ValueError)
  end.

Section Int.
Variable s : solver.
Let m := denote (sv_kernel s).
Let A := fun a b => mA m (CT a) (CT b).
Let Q := fun a b => mQ m (CT a) (CT b).
Let Hs := map (mH m) (coord_list (sv_X s)).

Definition x_tmid (X : coords) : seq R := times X.
Definition x_delta (X : coords) : seq R :=
  match X with CArray _ => [::] | CPair _ d => d | CTriple _ d _ => d end.
Definition x_inst (X : coords) : seq nat := if X is CTriple _ _ i then i else [::].
Let tm := x_tmid (sv_X s).
Let dl := x_delta (sv_X s).
Let t := @t_states [realFieldType of R] tm dl.
Let obs := @obsid [realFieldType of R] tm dl.
Let st := @stateid [realFieldType of R] tm dl.
Let inst := x_inst (sv_X s).
Definition int_state_coords : state_coords := SCtuple t inst obs st.

Definition int_run (y : seq R) (return_v_S : bool) : conditioned [realFieldType of R] (md m) :=
  int_condition A Q Hs (mReset m) (sv_noise s) y t obs inst st (mPinf m) return_v_S.
(** Kalman, integrated/solver.py:82-95; condition, 104-128; predict, 130-266 (time
    differences of state and test times, as in the instantaneous solver). *)
Definition int_kalman (y : seq R) (return_v_S : bool) : err + kalman_results (sdim_of s) :=
  traced_transition s (kalman_of (int_run y return_v_S)).
Definition int_solver_condition (y : seq R) (return_v_S : bool) : err + results (sdim_of s) :=
  traced_transition s (results_of int_state_coords (int_run y return_v_S)).

(** ** ParallelIntegratedStateSpaceSolver, solvers/integrated/parallel/solver.py *)

(** Phi(0, 0) is called with Python numbers (integrated/parallel/kalman.py:118); in
    dimension 1 the branches of jax.lax.cond have different shapes (b is squeezed on
    line 167, not on line 143), a TypeError. *)
Definition int_par_guard {A : Type} (a : A) : err + A :=
  match transition_raises true (sv_kernel s) with
  | Some e => inl e
  | None => if sdim_of s == 1%N then inl TypeError else inr a
  end.
Definition int_par_run (y : seq R) (return_v_S : bool) : conditioned [realFieldType of R] (md m) :=
  int_par_condition A Q Hs (mReset m) (sv_noise s) y t obs
    (@instid_states [realFieldType of R] tm dl inst) st (mPinf m) return_v_S.
(** Kalman, integrated/parallel/solver.py:83-96; condition, 109-134; predict, 136-274. *)
Definition int_par_kalman (y : seq R) (return_v_S : bool) : err + kalman_results (sdim_of s) :=
  int_par_guard (kalman_of (int_par_run y return_v_S)).
Definition int_par_solver_condition (y : seq R) (return_v_S : bool) : err + results (sdim_of s) :=
  int_par_guard (results_of int_state_coords (int_par_run y return_v_S)).
End Int.

Definition int_ops : solver_ops :=
  {| so_init := int_init;
     so_kalman := int_kalman;
     so_condition := int_solver_condition;
     so_predict := seq_solver_predict |}.
Definition int_par_ops : solver_ops :=
  {| so_init := int_init;
     so_kalman := int_par_kalman;
     so_condition := int_par_solver_condition;
     so_predict := seq_solver_predict |}.

Definition smolgp_ops (kind : solver_kind) : solver_ops :=
  match kind with
  | StateSpaceSolver => seq_ops
  | ParallelStateSpaceSolver => par_ops
  | IntegratedStateSpaceSolver => int_ops
  | ParallelIntegratedStateSpaceSolver => int_par_ops
  end.
