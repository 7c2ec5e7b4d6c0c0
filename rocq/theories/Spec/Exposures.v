(** Data sets of exposures (t, delta, instid), for the integrated models. *)
From Coq Require Import Reals.
From mathcomp Require Import all_ssreflect all_algebra.
From Verif.Prelude Require Import Rstruct.
From Verif.Spec Require Import WfKernel IntCov Data.
From Verif.Model Require Import BaseKernels Kernel Frontend.
Set Implicit Arguments.
Unset Strict Implicit.
Unset Printing Implicit Defensive.

(** The i-th exposure. *)
Definition exposure (X : coords) (i : nat) : coord := nth (CT 0) (coord_list X) i.

(** N > 0 exposures of length >= 0, in any order, by instruments numbered 0 to n-1; no
    exposure begins while its own instrument is exposing; one variance > 0 for each. *)
Record valid_exposures (n : nat) (X : coords) (diag : option farray) (y : seq R) : Prop :=
  ValidExposures {
  ve_triple : match X with
              | CTriple t d s => size d = size t /\ size s = size t
              | _ => False
              end;
  ve_N : (0 < num_coords X)%N;
  ve_len : forall i, (i < num_coords X)%N -> Rle 0 (len (exposure X i));
  ve_inst : forall i, (i < num_coords X)%N -> (inst_of (exposure X i) < n)%N;
  ve_sep : forall i j, (i < num_coords X)%N -> (j < num_coords X)%N ->
    inst_of (exposure X i) = inst_of (exposure X j) -> Rlt 0 (len (exposure X i)) ->
    ~ (Rlt (begin (exposure X i)) (begin (exposure X j)) /\
       Rlt (begin (exposure X j)) (finish (exposure X i)));
  ve_y : size y = num_coords X;
  ve_d : size (variances diag (num_coords X)) = num_coords X;
  ve_pos : forall i, (i < num_coords X)%N -> Rlt 0 (nth 0%R (variances diag (num_coords X)) i)
}.

(** The times at which an exposure begins or ends. *)
Definition boundary (X : coords) (s : R) : Prop :=
  exists i, (i < num_coords X)%N /\ (s = begin (exposure X i) \/ s = finish (exposure X i)).

(** The process noise used by the filter is exact (see [all_noise_kept]) for the time
    between every two boundaries without a boundary between them, and for 0. *)
Definition exposure_steps_kept (k : kernel) (X : coords) : Prop :=
  forall s s', boundary X s -> boundary X s' -> Rle s s' ->
    (forall u, boundary X u -> ~ (Rlt s u /\ Rlt u s')) -> all_noise_kept (Rminus s' s) k.

(** The default solver of integrated models, or the same one requested explicitly. *)
Definition default_integrated_solver (sa : solver_arg) : Prop :=
  sa = NoSolver \/ sa = SolverClass IntegratedStateSpaceSolver.

(** Sums without the kernel whose small process noise entries are replaced by 0. *)
Fixpoint plain_integrated (k : kernel) : Prop :=
  match k with
  | Sum k1 k2 => plain_integrated k1 /\ plain_integrated k2
  | IntegratedSHO _ _ _ _ _ => False
  | _ => True
  end.
