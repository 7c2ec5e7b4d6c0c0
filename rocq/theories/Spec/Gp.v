(** Dense Gaussian-process regression, written independently of the solvers.

    A p-dimensional quantity f has prior covariance [kff] and covariance [kfy]
    with N noisy scalar observations y, whose covariance is K + diag(R). *)
From mathcomp Require Import all_ssreflect all_algebra.
Set Implicit Arguments.
Unset Strict Implicit.
Unset Printing Implicit Defensive.
Import Order.TTheory GRing.Theory Num.Theory.
Local Open Scope ring_scope.

Section Gp.
Variable F : realFieldType.

(** Covariance of the noisy data: K + diag(R). *)
Definition data_cov N (K : 'M[F]_N) (R : 'rV[F]_N) : 'M[F]_N := K + diag_mx R.

(** Posterior mean  kfy (K + R)^-1 y. *)
Definition post_mean p N (kfy : 'M[F]_(p, N)) (Sg : 'M[F]_N) (y : 'cV[F]_N) : 'cV[F]_p :=
  kfy *m invmx Sg *m y.

(** Posterior covariance  kff - kfy (K + R)^-1 kyf. *)
Definition post_cov p N (kff : 'M[F]_p) (kfy : 'M[F]_(p, N)) (Sg : 'M[F]_N) : 'M[F]_p :=
  kff - kfy *m invmx Sg *m kfy^T.

(** Scalar kernels evaluated on lists of coordinates. *)
Section Kernel.
Variables (X : Type) (x0 : X) (kern : X -> X -> F).

Definition gram (xs : seq X) : 'M[F]_(size xs) :=
  \matrix_(i, j) kern (nth x0 xs i) (nth x0 xs j).

Definition cross (x : X) (xs : seq X) : 'rV[F]_(size xs) :=
  \row_j kern x (nth x0 xs j).

Definition row_of n (r : seq F) : 'rV[F]_n := \row_j r`_j.
Definition col_of n (r : seq F) : 'cV[F]_n := \col_j r`_j.

(** Posterior mean and variance of f(x) given noisy values ys of f at xs. *)
Definition gp_mean (xs : seq X) (rs ys : seq F) (x : X) : F :=
  post_mean (cross x xs) (data_cov (gram xs) (row_of _ rs)) (col_of _ ys) 0 0.

Definition gp_var (xs : seq X) (rs : seq F) (x : X) : F :=
  post_cov (kern x x)%:M (cross x xs) (data_cov (gram xs) (row_of _ rs)) 0 0.

(** Mahalanobis term y^T (K + R)^-1 y and determinant of K + R; the log density
    is  -1/2 (quad + ln det + N ln 2 pi). *)
Definition gp_quad (xs : seq X) (rs ys : seq F) : F :=
  post_mean (col_of (size xs) ys)^T (data_cov (gram xs) (row_of _ rs)) (col_of _ ys) 0 0.

Definition gp_det (xs : seq X) (rs : seq F) : F :=
  \det (data_cov (gram xs) (row_of _ rs)).

End Kernel.
End Gp.
