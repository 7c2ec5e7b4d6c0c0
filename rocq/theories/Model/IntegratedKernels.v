(** src/smolgp/kernels/integrated.py: models augmented with integral states. *)
From Coq Require Import Reals.
From mathcomp Require Import all_ssreflect all_algebra.
From Verif.Prelude Require Import Rstruct.
From Verif.Spec Require Import Expm.
From Verif.Model Require Import Array Helpers BaseKernels.
Set Implicit Arguments.
Unset Strict Implicit.
Unset Printing Implicit Defensive.
Import GRing.Theory.

(** M[:, :1], M[0, :] and M[:1, :1]. *)
Definition first_col d (M : 'M[R]_d) : 'M[R]_(d, 1) :=
  (\matrix_(i, _) \sum_(j < d | (j : nat) == 0%N) M i j)%R.
Definition first_row d (M : 'M[R]_d) : 'M[R]_(1, d) :=
  (\matrix_(_, j) \sum_(i < d | (i : nat) == 0%N) M i j)%R.
Definition first_entry d (M : 'M[R]_d) : R :=
  (\sum_(i < d | (i : nat) == 0%N) \sum_(j < d | (j : nat) == 0%N) M i j)%R.

Section Integrated.
Local Open Scope ring_scope.

(** IntegratedStateSpaceModel, kernels/integrated.py:44-247: the base model, the
    number of instruments, and the overridable methods
    integrated_transition_matrix(t1, t2) and integrated_process_noise(t1, t2)
    (Qaug12 and Qaug22; Qaug21 is always the transpose of Qaug12). *)
Variables (b : model) (n : nat).
Variable Phibar : R -> R -> 'M[R]_(md b).
Variable Qaug12 : R -> R -> 'M[R]_(md b, 1).
Variable Qaug22 : R -> R -> R.
Let d := md b.

(** integrated.py:146-158 and 174-202: the Van Loan defaults. *)
Definition default_Phibar (t1 t2 : R) : 'M[R]_d := Phibar_from_VanLoan (mF b) (t2 - t1).
Definition default_Qaug12 (t1 t2 : R) : 'M[R]_(d, 1) :=
  let dt := t2 - t1 in
  let F3 := vl_F3 (mF b) (mL b) (mQc b) dt in
  let H2 := vl_H2 (mF b) (mL b) (mQc b) dt in
  first_col (F3^T *m H2).
Definition default_Qaug22 (t1 t2 : R) : R :=
  let dt := t2 - t1 in
  let F3 := vl_F3 (mF b) (mL b) (mQc b) dt in
  let K1 := vl_K1 (mF b) (mL b) (mQc b) dt in
  let F3TK1 := F3^T *m K1 in
  let W := F3TK1 + F3TK1^T in
  first_entry W.

(** jax.lax.dynamic_update_slice clamps the start index so that the update fits;
    instid is taken to be a non-negative index. *)
Definition slot (instid : nat) : nat := minn (d + instid) (d + n).-1.

(** observation_matrix, integrated.py:96-134 *)
Definition H_integral (delta : R) (instid : nat) : 'M[R]_(1, d + n) :=
  \matrix_(_, j) if (j : nat) == slot instid then 1 / delta else 0.
Definition H_latent : 'M[R]_(1, d + n) := \matrix_(_, j) if (j : nat) == 0%N then 1 else 0.
Definition aug_H (X : coord) : 'M[R]_(1, d + n) :=
  match X with
  | CX t delta instid => if Rltb 0 delta then H_integral delta instid else H_latent
  | CT _ => H_latent
  end.

(** design_matrix, integrated.py:81-88; stationary_covariance, 90-94;
    noise and noise_effect_matrix, 136-144 (jnp.vstack of L with num_insts
    scalar rows: needs a one-column L, as every base model here has);
    transition_matrix, 160-172; process_noise, 208-236; reset_matrix, 238-247.
    force_numerical is modelled by instantiating the Van Loan defaults. *)
Definition integrated_model : model :=
  {| md := d + n;
     mF := block_mx (mF b) 0 (\matrix_(i, j) if (j : nat) == 0%N then 1 else 0) 0;
     mp := mp b;
     mL := col_mx (mL b) 0;
     mQc := mQc b;
     mPinf := block_mx (mPinf b) 0 0 1%:M;
     mH := aug_H;
     mA := fun X1 X2 =>
       let t1 := coord_to_sortable X1 in
       let t2 := coord_to_sortable X2 in
       block_mx (mA b (CT t1) (CT t2)) 0
                (\matrix_(i, j) first_row (Phibar t1 t2) 0 j) 1%:M;
     mQ := fun X1 X2 =>
       let t1 := coord_to_sortable X1 in
       let t2 := coord_to_sortable X2 in
       block_mx (mQ b (CT 0) (CT (t2 - t1))) (\matrix_(i, j) Qaug12 t1 t2 i 0)
                (\matrix_(i, j) Qaug12 t1 t2 j 0) (const_mx (Qaug22 t1 t2));
     mReset := fun instid =>
       diag_mx (\row_j if (j : nat) == slot instid then 0 else 1) |}.

End Integrated.

(** The default construction (IntegratedExp, IntegratedMatern32,
    IntegratedMatern52, IntegratedCosine: integrated.py:428-509). *)
Definition integrated_default (b : model) (n : nat) : model :=
  @integrated_model b n (default_Phibar b) (default_Qaug12 b) (default_Qaug22 b).

(** IntegratedSHO, integrated.py:250-421. *)
Section IntegratedSHO.
Local Open Scope R_scope.
Variables (w q sigma : R).
Let n := sho_eta q.
Let base := sho_model w q sigma.

(** integrated_transition_matrix, integrated.py:294-359 *)
Definition isho_Phibar_underdamped (dt : R) : 'M[R]_2 :=
  let a := - (1 / 2) * w / q in
  let b := n * w in
  let a2plusb2 := sq a + sq b in
  let A := 1 / (2 * n * q) in
  let B := 1 / (n * w) in
  let C := - w / n in
  let arg := b * dt in
  let ex := exp (a * dt) in
  let asin := a * sin arg in
  let bsin := b * sin arg in
  let acos := a * cos arg in
  let bcos := b * cos arg in
  let Ic := acos + bsin in
  let Is := asin - bcos in
  let Phibar11 := ex * (Ic + A * Is) - (a - A * b) in
  let Phibar12 := B * (Is * ex + b) in
  let Phibar21 := C * (Is * ex + b) in
  let Phibar22 := ex * (Ic - A * Is) - (a + A * b) in
  smul (/ a2plusb2) (mat 2 2 [:: [:: Phibar11; Phibar12]; [:: Phibar21; Phibar22]]).
Definition isho_Phibar (t1 t2 : R) : 'M[R]_2 :=
  if allclose q (1 / 2) then default_Phibar base t1 t2
  else if Rltb (1 / 2) q then isho_Phibar_underdamped (t2 - t1)
  else default_Phibar base t1 t2.

(** integrated_process_noise, integrated.py:361-421.  The critical and
    overdamped cases are the Van Loan defaults at (0, dt). *)
Definition isho_Q12_raw (dt : R) : 'M[R]_(2, 1) :=
  let a := - (1 / 2) * w / q in
  let b := n * w in
  let A := 1 / (2 * n * q) in
  let x := a * dt in
  let arg := b * dt in
  let ex := exp x in
  let exp2 := exp (2 * x) in
  let exp2m1 := expm1 (2 * x) in
  let sin_ := sin arg in
  let cos_ := cos arg in
  let sinsq := sq (sin arg) in
  let sin2 := sin (2 * arg) in
  let A2 := sq A in
  let iQ12_1 := sq (ex * (cos_ + A * sin_) - 1) / (q * w) in
  let iQ12_2 := A * ex * (4 * sin_ - ex * sin2) - 2 * A2 * exp2 * sinsq + exp2m1 in
  smul (sq sigma) (mat 2 1 [:: [:: iQ12_1]; [:: iQ12_2]]).
Definition isho_iQ22 (dt : R) : R :=
  let a := - (1 / 2) * w / q in
  let b := n * w in
  let A := 1 / (2 * n * q) in
  let x := a * dt in
  let arg := b * dt in
  let w2 := sq w in
  let q2 := sq q in
  let q4 := sq q2 in
  let ex := exp x in
  let exp2 := exp (2 * x) in
  let sin_ := sin arg in
  let cos_ := cos arg in
  let sin2 := sin (2 * arg) in
  let cos2 := cos (2 * arg) in
  let A2 := sq A in
  let part1 := 8 * q * w * dt + 4 * q2 - 12 in
  let part2 := A2 * exp2 * (cos2 - 16 * q4) in
  let part3_1 := 16 * ex * (cos_ + (1 - 2 * q2) * A * sin_) in
  let part3_2 := exp2 * ((1 - 3 * A2) / A * sin2 - 3 * cos2) in
  let part3 := part3_1 + part3_2 in
  1 / (4 * q2 * w2) * (part1 + part2 + part3).
Definition isho_Q22_raw (dt : R) : R := sq sigma * Rmax (isho_iQ22 dt) 0.
Definition isho_Q12 (t1 t2 : R) : 'M[R]_(2, 1) :=
  let dt := t2 - t1 in
  if allclose q (1 / 2) then default_Qaug12 base 0 dt
  else if Rltb (1 / 2) q then flush_mx (isho_Q12_raw dt)
  else default_Qaug12 base 0 dt.
Definition isho_Q22 (t1 t2 : R) : R :=
  let dt := t2 - t1 in
  if allclose q (1 / 2) then default_Qaug22 base 0 dt
  else if Rltb (1 / 2) q then flush (isho_Q22_raw dt)
  else default_Qaug22 base 0 dt.

Definition isho_model (num_insts : nat) : model :=
  @integrated_model base num_insts isho_Phibar isho_Q12 isho_Q22.
End IntegratedSHO.
