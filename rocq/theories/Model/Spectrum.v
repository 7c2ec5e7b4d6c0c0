(** StateSpaceModel.psd, kernels/base.py:231-249.  No subclass overrides it. *)
From Coq Require Import Reals.
From mathcomp Require Import all_ssreflect all_algebra.
From mathcomp.real_closed Require Import complex.
From Verif.Prelude Require Import Rstruct.
From Verif.Model Require Import Array BaseKernels.
Set Implicit Arguments.
Unset Strict Implicit.
Unset Printing Implicit Defensive.
Import GRing.Theory.
Local Open Scope ring_scope.

(** A real array used in complex arithmetic. *)
Definition toC m n (A : 'M[R]_(m, n)) : 'M[complex R]_(m, n) := map_mx (real_complex R) A.

(** F + 1j * w * I, the matrix that is inverted (base.py:245). *)
Definition psd_matrix (m : model) (w : R) : 'M[complex R]_(md m) :=
  toC (mF m) + (Complex 0 w)%:M.

(** compute_psd before .real, base.py:244-246: M = inv(F + 1j w I),
    S = H @ conj(M) @ L @ Qc @ L.T @ M.T @ H.T with H = observation_matrix(0).
    jnp.linalg.inv is invmx; psd_value below says where the matrix is singular. *)
Definition psd_complex (m : model) (w : R) : complex R :=
  let M := invmx (psd_matrix m w) in
  let H := toC (mH m (CT R0)) in
  let L := toC (mL m) in
  (H *m map_mx (@conjc _) M *m L *m toC (mQc m) *m L^T *m M^T *m H^T) 0 0.

(** S.squeeze().real / (2 pi), base.py:247. *)
Definition psd_at (m : model) (w : R) : R := Rdiv (complex.Re (psd_complex m w)) (Rmult 2 PI).

(** compute_psd, base.py:244-247: [None] where the inverse does not exist (jnp.linalg.inv
    then returns inf or nan, and so does compute_psd). *)
Definition psd_value (m : model) (w : R) : option R :=
  if psd_matrix m w \in unitmx then Some (psd_at m w) else None.

(** kernel.psd(omega), vmapped over omega, base.py:249. *)
Definition psd (m : model) (omega : seq R) : seq (option R) := map (psd_value m) omega.
