(** Textbook covariance functions of the lag r = |x_i - x_j|, as documented in the
    class docstrings of kernels/base.py. *)
From Coq Require Import Reals.
Local Open Scope R_scope.

(** Exp, base.py:737-739 *)
Definition cov_exp (l s r : R) : R := s ^ 2 * exp (- r / l).

(** Matern32, base.py:808-812, f = sqrt 3 / l *)
Definition cov_matern32 (l s r : R) : R :=
  let f := sqrt 3 / l in s ^ 2 * (1 + f * r) * exp (- f * r).

(** Matern52, base.py:892-897, f = sqrt 5 / l *)
Definition cov_matern52 (l s r : R) : R :=
  let f := sqrt 5 / l in s ^ 2 * (1 + f * r + f ^ 2 * r ^ 2 / 3) * exp (- f * r).

(** Cosine, base.py:1014-1018 *)
Definition cov_cosine (l s r : R) : R := s ^ 2 * cos (- 2 * PI * r / l).

(** SHO, base.py:562-575: eta = sqrt |1 - 1/(4 Q^2)| *)
Definition eta (Q : R) : R := sqrt (Rabs (1 - 1 / (4 * Q ^ 2))).
Definition cov_sho_critical (w s r : R) : R := s ^ 2 * exp (- w * r) * (1 + w * r).
Definition cov_sho_over (w Q s r : R) : R :=
  s ^ 2 * exp (- w * r / (2 * Q))
  * (cosh (eta Q * w * r) + 1 / (2 * eta Q * Q) * sinh (eta Q * w * r)).
(** The underdamped covariance of Foreman-Mackey et al. (2017), the reference the
    docstring cites. *)
Definition cov_sho_under (w Q s r : R) : R :=
  s ^ 2 * exp (- w * r / (2 * Q))
  * (cos (eta Q * w * r) + 1 / (2 * eta Q * Q) * sin (eta Q * w * r)).
(** What the docstring prints for Q > 1/2 (base.py:571). *)
Definition cov_sho_under_docstring (w Q s r : R) : R :=
  s ^ 2 * exp (- w * r / (2 * Q))
  * (1 / (2 * eta Q * Q) * cos (eta Q * w * r) + sin (eta Q * w * r)).

(** Constant, base.py:505-507 *)
Definition cov_constant (s r : R) : R := s ^ 2.

(** ExpSineSquared, base.py:1097-1107, with period P *)
Definition cov_periodic (P g s r : R) : R := s ^ 2 * exp (- g * sin (PI * (r / P)) ^ 2).
