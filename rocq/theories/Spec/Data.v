(** What data sets the statements about the front end are about. *)
From Coq Require Import Reals String.
From mathcomp Require Import all_ssreflect all_algebra.
From Verif.Prelude Require Import Rstruct.
From Verif.Spec Require Import WfKernel.
From Verif.Model Require Import BaseKernels Kernel Frontend.
Set Implicit Arguments.
Unset Strict Implicit.
Unset Printing Implicit Defensive.

(** The measurement variances meant by the argument diag for N data: the default is
    the square root of the machine epsilon. *)
Definition variances (diag : option farray) (N : nat) : seq R :=
  match diag with
  | None => nseq N (sqrt (/ 2 ^ 52))
  | Some (Scalar x) | Some (Vector [:: x]) => nseq N x
  | Some (Vector v) => v
  end.

(** N > 0 measurements at non-decreasing times, one variance > 0 for each. *)
Record valid_data (X : coords) (diag : option farray) (y : seq R) : Prop := ValidData {
  vd_N : (0 < num_coords X)%N;
  vd_sorted : forall i j, (i <= j < num_coords X)%N -> Rle (nth 0%R (times X) i) (nth 0%R (times X) j);
  vd_lengths : match X with
               | CArray _ => True
               | CPair t d => size d = size t
               | CTriple t d s => size d = size t /\ size s = size t
               end;
  vd_y : size y = num_coords X;
  vd_d : size (variances diag (num_coords X)) = num_coords X;
  vd_pos : forall i, (i < num_coords X)%N -> Rlt 0 (nth 0%R (variances diag (num_coords X)) i)
}.

(** The process noise used by the filter is exact (see [noise_kept]) for the time
    difference between every two consecutive data, and for 0. *)
Definition steps_kept (k : kernel) (t : seq R) : Prop :=
  noise_kept 0 k /\
  forall i, (i.+1 < size t)%N -> noise_kept (Rminus (nth 0%R t i.+1) (nth 0%R t i)) k.

(** The same for the step from the last datum before a test time to that time. *)
Definition predict_kept (k : kernel) (t : seq R) (s : R) : Prop :=
  forall i, (i < size t)%N -> Rle (nth 0%R t i) s ->
    (forall j, (i < j < size t)%N -> Rlt s (nth 0%R t j)) ->
    noise_kept (Rminus s (nth 0%R t i)) k.

(** The summands of a kernel, and the condition under which the renaming of
    components does not raise: distinct names, or no summand is a product. *)
Fixpoint summands (k : kernel) : seq kernel :=
  match k with Sum k1 k2 => summands k1 ++ summands k2 | k => [:: k] end.
Definition is_product (k : kernel) : Prop := if k is Product _ _ then True else False.
Fixpoint distinct (s : seq string) : Prop :=
  if s is x :: s' then (~ List.In x s') /\ distinct s' else True.
Definition names_ok (k : kernel) : Prop :=
  distinct (map kname (summands k)) \/ (forall k', List.In k' (summands k) -> ~ is_product k').

(** The default solver, or the same one requested explicitly. *)
Definition default_solver (sa : solver_arg) : Prop :=
  sa = NoSolver \/ sa = SolverClass StateSpaceSolver.

(** The same data with another origin of time. *)
Definition shift_coord (dt : R) (x : coord) : coord :=
  match x with CT t => CT (Rplus t dt) | CX t e i => CX (Rplus t dt) e i end.
Definition shift_coords (dt : R) (X : coords) : coords :=
  match X with
  | CArray t => CArray [seq Rplus u dt | u <- t]
  | CPair t d => CPair [seq Rplus u dt | u <- t] d
  | CTriple t d i => CTriple [seq Rplus u dt | u <- t] d i
  end.

(** Kernels whose process noise is never approximated (see [noise_kept]). *)
Fixpoint plain_noise (k : kernel) : Prop :=
  match k with
  | SHO _ _ _ _ | Custom _ _ | Scale _ _ _ => False
  | Sum k1 k2 | Product k1 k2 => plain_noise k1 /\ plain_noise k2
  | _ => True
  end.

(** A kernel expression with no integrated summand. *)
Definition instantaneous (k : kernel) : Prop :=
  forall k', List.In k' (summands k) -> ~~ is_integrated_leaf k'.
