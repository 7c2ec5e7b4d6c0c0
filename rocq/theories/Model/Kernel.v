(** Kernel objects: the class hierarchy of kernels/base.py and
    kernels/integrated.py as a syntax tree, and its interpretation. *)
From Coq Require Import Reals String DecimalString.
From mathcomp Require Import all_ssreflect all_algebra.
From mathcomp.real_closed Require Import mxtens.
From Verif.Prelude Require Import Rstruct.
From Verif.Spec Require Import Expm.
From Verif.Model Require Import Array Helpers Ssm BaseKernels IntegratedKernels.
Set Implicit Arguments.
Unset Strict Implicit.
Unset Printing Implicit Defensive.
Import GRing.Theory.

(** Python exceptions that the modelled code raises. *)
Inductive err :=
  AttributeError | TypeError | ValueError | KeyError | IndexError | NotImplemented
| AssertionError.

(** Generic half-integer Matern, kernels/base.py:1256-1370; nu = p + 1/2. *)
Section Matern.
Variables (p : nat) (scale sigma : R).
Let d := p.+1.

(** base.py:1312 *)
Definition matern_lam : R := (sqrt (2 * (INR p + 1 / 2)) / scale)%R.
Let lam := matern_lam.

(** design_matrix, base.py:1319-1328 *)
Definition matern_F : 'M[R]_d :=
  (\matrix_(i, j)
    if (i : nat) == p then
      - (INR (fact d) / (INR (fact j) * INR (fact (d - j))) * lam ^+ (d - j))
    else if (j : nat) == i.+1 then 1 else 0)%R.

(** observation_matrix, base.py:1330-1335; noise_effect_matrix, 1337-1341;
    noise, 1343-1352 *)
Definition matern_H : 'M[R]_(1, d) := (\matrix_(_, j) if (j : nat) == 0%N then 1 else 0)%R.
Definition matern_L : 'M[R]_(d, 1) := (\matrix_(i, _) if (i : nat) == p then 1 else 0)%R.
Definition matern_Qc : 'M[R]_1 :=
  (\matrix_(_, _) (sq sigma * sq (INR (fact (d - 1))) / INR (fact (2 * d - 2))
                   * (2 * lam) ^+ (2 * d - 1)))%R.

(** scipy.linalg.solve_continuous_lyapunov(F, Q): the X with F X + X F^H = Q,
    as the solution of the d^2 x d^2 linear system. *)
Definition lyap_op n (F X : 'M[R]_n) : 'M[R]_n := (F *m X + X *m F^T)%R.
Definition solve_continuous_lyapunov n (F Q : 'M[R]_n) : 'M[R]_n :=
  vec_mx (mxvec Q *m invmx (lin_mx (lyap_op F)))%R.

(** stationary_covariance, base.py:1354-1370 *)
Definition matern_Pinf : 'M[R]_d :=
  solve_continuous_lyapunov matern_F (- (matern_L *m matern_Qc *m matern_L^T))%R.

Definition matern_model : model :=
  {| md := d; mF := matern_F; mp := 1; mL := matern_L; mQc := matern_Qc;
     mPinf := matern_Pinf; mH := fun _ => matern_H;
     mA := default_transition matern_F;
     mQ := default_process_noise matern_F matern_L matern_Qc matern_Pinf
             (default_transition matern_F) false;
     mReset := default_reset d |}.
End Matern.

Inductive kernel :=
| Constant (sigma : R) (name : string)
| SHO (omega quality sigma : R) (name : string)
| Exp (scale sigma : R) (name : string)
| Matern32 (scale sigma : R) (name : string)
| Matern52 (scale sigma : R) (name : string)
| Cosine (scale sigma : R) (name : string)
| PeriodicTerm (j : nat) (omega scale : R)
| ExpSineSquared (period gamma sigma : R) (order : option nat) (name : string)
| Matern (p : nat) (scale sigma : R)
| Custom (m : model) (name : string)          (* a user-defined subclass *)
| Scale (a : R) (k : kernel) (name : string)
| Sum (k1 k2 : kernel)
| Product (k1 k2 : kernel)
| IntegratedSHO (omega quality sigma : R) (num_insts : nat) (name : string)
| IntegratedExp (scale sigma : R) (num_insts : nat) (name : string)
| IntegratedMatern32 (scale sigma : R) (num_insts : nat) (name : string)
| IntegratedMatern52 (scale sigma : R) (num_insts : nat) (name : string)
| IntegratedCosine (scale sigma : R) (num_insts : nat) (name : string).

(** ExpSineSquared.__init__: PeriodicTerm(0) + ... + PeriodicTerm(order - 1),
    associated to the left (kernels/base.py:1165-1169). *)
Fixpoint periodic_sum (J : nat) (omega scale : R) : model :=
  match J with
  | 0 | 1 => periodic_model 0 omega scale
  | S j => sum_model (periodic_sum j omega scale) (periodic_model j omega scale)
  end.
Definition ess_model (period gamma sigma : R) (order : option nat) : model :=
  ess_wrap sigma
    (periodic_sum (ess_order gamma order) (ess_omega period) (ess_scale gamma)).

Fixpoint denote (k : kernel) : model :=
  match k with
  | Constant sigma _ => constant_model sigma
  | SHO w q sigma _ => sho_model w q sigma
  | Exp scale sigma _ => exp_model scale sigma
  | Matern32 scale sigma _ => matern32_model scale sigma
  | Matern52 scale sigma _ => matern52_model scale sigma
  | Cosine scale sigma _ => cosine_model scale sigma
  | PeriodicTerm j omega scale => periodic_model j omega scale
  | ExpSineSquared period gamma sigma order _ => ess_model period gamma sigma order
  | Matern p scale sigma => matern_model p scale sigma
  | Custom m _ => m
  | Scale a k _ => scale_model a (denote k)
  | Sum k1 k2 => sum_model (denote k1) (denote k2)
  | Product k1 k2 => product_model (denote k1) (denote k2)
  | IntegratedSHO w q sigma n _ => isho_model w q sigma n
  | IntegratedExp scale sigma n _ => integrated_default (exp_model scale sigma) n
  | IntegratedMatern32 scale sigma n _ => integrated_default (matern32_model scale sigma) n
  | IntegratedMatern52 scale sigma n _ => integrated_default (matern52_model scale sigma) n
  | IntegratedCosine scale sigma n _ => integrated_default (cosine_model scale sigma) n
  end.

Definition nat_string (n : nat) : string := NilZero.string_of_uint (Nat.to_uint n).

(** The attribute [name]: Sum, base.py:262-265; Product, 350-353; PeriodicTerm,
    1201; Matern, 1311 (the argument [name] is ignored). *)
Fixpoint kname (k : kernel) : string :=
  match k with
  | Constant _ s | SHO _ _ _ s | Exp _ _ s | Matern32 _ _ s | Matern52 _ _ s
  | Cosine _ _ s | ExpSineSquared _ _ _ _ s | Custom _ s | Scale _ _ s
  | IntegratedSHO _ _ _ _ s | IntegratedExp _ _ _ s | IntegratedMatern32 _ _ _ s
  | IntegratedMatern52 _ _ _ s | IntegratedCosine _ _ _ s => s
  | PeriodicTerm j _ _ => String.append "PeriodicTerm_" (nat_string j)
  | Matern p _ _ => String.append "Matern" (String.append (nat_string (2 * p + 1)) "2")
  | Sum k1 k2 => String.append "Sum(" (String.append (kname k1)
                   (String.append ", " (String.append (kname k2) ")")))
  | Product k1 k2 => String.append "Product(" (String.append (kname k1)
                   (String.append ", " (String.append (kname k2) ")")))
  end.

(** Does calling k.transition_matrix raise, and what (kernels/base.py:547-550:
    Constant calls self.eye; base.py:792: Exp indexes dt, which fails when both
    coordinates are Python numbers, as in Phi(0, 0))? *)
Fixpoint transition_raises (python_numbers : bool) (k : kernel) : option err :=
  match k with
  | Constant _ _ => Some AttributeError
  | Exp _ _ _ | IntegratedExp _ _ _ _ => if python_numbers then Some TypeError else None
  | Scale _ k _ => transition_raises python_numbers k
  | Sum k1 k2 | Product k1 k2 =>
      match transition_raises python_numbers k1 with
      | Some e => Some e
      | None => transition_raises python_numbers k2
      end
  | _ => None
  end.

(** observation_model(X, component): the base method (base.py:98-101), and the
    overrides in Sum (306-313) and Product (399-403). *)
Fixpoint observation_model (k : kernel) (X : coord) (component : option string) :
    'M[R]_(1, md (denote k)) :=
  match k return 'M[R]_(1, md (denote k)) with
  | Sum k1 k2 => row_mx (observation_model k1 X component) (observation_model k2 X component)
  | Product k1 k2 =>
      (observation_model k1 X component *t observation_model k2 X component)%R
  | k => let keep := match component with
                     | None => true
                     | Some c => (kname k =? c)%string
                     end in
         ((if keep then 1 else 0) *: mH (denote k) X)%R
  end.

(** Calling transition_matrix and evaluate (base.py:210-224, inherited by every
    class), exceptions included; evaluate calls transition_matrix on the
    coordinates it is given. *)
Definition kernel_transition (python_numbers : bool) (k : kernel) (X1 X2 : coord) :
    err + 'M[R]_(md (denote k)) :=
  match transition_raises python_numbers k with
  | Some e => inl e
  | None => inr (mA (denote k) X1 X2)
  end.

Definition kernel_evaluate (python_numbers : bool) (k : kernel) (X1 X2 : coord) : err + R :=
  let Pinf := mPinf (denote k) in
  let h1 := observation_model k X1 None in
  let h2 := observation_model k X2 None in
  match kernel_transition python_numbers k X1 X2, kernel_transition python_numbers k X2 X1 with
  | inr A12, inr A21 =>
      inr (if Rltb (coord_to_sortable X1) (coord_to_sortable X2)
           then (h2 *m Pinf *m A12^T *m h1^T)%R 0%R 0%R
           else (h1 *m A21 *m Pinf *m h2^T)%R 0%R 0%R)
  | inl e, _ | _, inl e => inl e
  end.

(** extract_leaf_kernels(kernel, all), kernels/base.py:32-47. *)
Fixpoint extract_leaf_kernels (all : bool) (k : kernel) : seq kernel :=
  match k with
  | Sum k1 k2 => extract_leaf_kernels all k1 ++ extract_leaf_kernels all k2
  | Product k1 k2 =>
      if all then extract_leaf_kernels all k1 ++ extract_leaf_kernels all k2 else [:: k]
  | k => [:: k]
  end.

(** isinstance(kernel, IntegratedStateSpaceModel). *)
Definition is_integrated_leaf (k : kernel) : bool :=
  match k with
  | IntegratedSHO _ _ _ _ _ | IntegratedExp _ _ _ _ | IntegratedMatern32 _ _ _ _
  | IntegratedMatern52 _ _ _ _ | IntegratedCosine _ _ _ _ => true
  | _ => false
  end.

(** kernel1 + kernel2 and kernel1 * kernel2 (base.py:173-208). Multiplication by
    a scalar calls Scale(kernel=self, scale=other) without the required field
    [name], a TypeError. *)
Definition kernel_add (k1 k2 : kernel) : kernel := Sum k1 k2.
Definition kernel_mul (k1 k2 : kernel) : kernel := Product k1 k2.
Definition kernel_scalar_mul (a : R) (k : kernel) : err + kernel := inl TypeError.
