(** src/smolgp/kernels/base.py: the state-space matrices of the base kernels. *)
From Coq Require Import Reals.
From mathcomp Require Import all_ssreflect all_algebra.
From mathcomp.real_closed Require Import mxtens.
From Verif.Prelude Require Import Rstruct.
From Verif.Spec Require Import Expm.
From Verif.Model Require Import Array Helpers Ssm.
Set Implicit Arguments.
Unset Strict Implicit.
Unset Printing Implicit Defensive.
Import GRing.Theory.

(** Coordinates: a plain time, or a tuple (t, delta, instid). *)
Inductive coord := CT of R | CX of R & R & nat.

(** StateSpaceModel.coord_to_sortable, kernels/base.py:76-85 (the overrides in
    Sum, Product, Wrapper and IntegratedStateSpaceModel do the same). *)
Definition coord_to_sortable (X : coord) : R :=
  match X with CT t => t | CX t _ _ => t end.

(** What a StateSpaceModel object provides (kernels/base.py:50-171). *)
Record model := Model {
  md : nat;                          (* dimension *)
  mF : 'M[R]_md;                     (* design_matrix() *)
  mp : nat;                          (* number of noise inputs *)
  mL : 'M[R]_(md, mp);               (* noise_effect_matrix() *)
  mQc : 'M[R]_mp;                    (* noise() *)
  mPinf : 'M[R]_md;                  (* stationary_covariance() *)
  mH : coord -> 'M[R]_(1, md);       (* observation_matrix(X) *)
  mA : coord -> coord -> 'M[R]_md;   (* transition_matrix(X1, X2) *)
  mQ : coord -> coord -> 'M[R]_md;   (* process_noise(X1, X2) *)
  mReset : nat -> 'M[R]_md           (* reset_matrix(instid) *)
}.

(** dt = coord_to_sortable(X2) - coord_to_sortable(X1), computed at the top of
    every transition_matrix and process_noise. *)
Definition lag (X1 X2 : coord) : R := Rminus (coord_to_sortable X2) (coord_to_sortable X1).

Section Defaults.
Local Open Scope ring_scope.

(** StateSpaceModel.transition_matrix (default), kernels/base.py:122-136. *)
Definition default_transition d (F : 'M[R]_d) (X1 X2 : coord) : 'M[R]_d :=
  expm (lag X1 X2 *: F).

(** StateSpaceModel.process_noise (default), kernels/base.py:138-164. *)
Definition default_process_noise d p (F : 'M[R]_d) (L : 'M[R]_(d, p)) (Qc : 'M[R]_p)
    (Pinf : 'M[R]_d) (A : coord -> coord -> 'M[R]_d) (use_van_loan : bool)
    (X1 X2 : coord) : 'M[R]_d :=
  if use_van_loan then Q_from_VanLoan F L Qc (lag X1 X2)
  else Pinf - A X1 X2 *m Pinf *m (A X1 X2)^T.

(** StateSpaceModel.reset_matrix, kernels/base.py:166-171. *)
Definition default_reset d (instid : nat) : 'M[R]_d := 1%:M.

(** StateSpaceModel.evaluate, kernels/base.py:210-224. *)
Definition evaluate (m : model) (X1 X2 : coord) : R :=
  let Pinf := mPinf m in
  let h1 := mH m X1 in
  let h2 := mH m X2 in
  if Rltb (coord_to_sortable X1) (coord_to_sortable X2)
  then (h2 *m Pinf *m (mA m X1 X2)^T *m h1^T) 0 0
  else (h1 *m mA m X2 X1 *m Pinf *m h2^T) 0 0.

(** StateSpaceModel.evaluate_diag, kernels/base.py:226-229. *)
Definition evaluate_diag (m : model) (X : coord) : R :=
  (mH m X *m mPinf m *m (mH m X)^T) 0 0.

(** What the instantaneous solvers see of a model: scalar times. *)
Definition to_ssm (m : model) : ssm [realFieldType of R] :=
  @Ssm [realFieldType of R] (md m) (fun t => mH m (CT t))
       (fun s t => mA m (CT s) (CT t)) (fun s t => mQ m (CT s) (CT t)) (mPinf m).

(** Sum, kernels/base.py:252-335.  tinygp's Block(...).to_dense() is the block
    diagonal matrix. *)
Definition sum_model (m1 m2 : model) : model :=
  {| md := md m1 + md m2;
     mF := block_mx (mF m1) 0 0 (mF m2);
     mp := mp m1 + mp m2;
     mL := block_mx (mL m1) 0 0 (mL m2);
     mQc := block_mx (mQc m1) 0 0 (mQc m2);
     mPinf := block_mx (mPinf m1) 0 0 (mPinf m2);
     mH := fun X => row_mx (mH m1 X) (mH m2 X);
     mA := fun X1 X2 => block_mx (mA m1 X1 X2) 0 0 (mA m2 X1 X2);
     mQ := fun X1 X2 => block_mx (mQ m1 X1 X2) 0 0 (mQ m2 X1 X2);
     mReset := fun i => block_mx (mReset m1 i) 0 0 (mReset m2 i) |}.

(** Product, kernels/base.py:338-436.  jnp.kron is mathcomp's tensor product
    [*t]; the observation row 1 x (d1 d2) is a (1*1) x (d1 d2) matrix. *)
Definition product_model (m1 m2 : model) : model :=
  {| md := md m1 * md m2;
     mF := mF m1 *t 1%:M + 1%:M *t mF m2;
     mp := md m1 * md m2;
     mL := 1%:M;
     mQc := (mL m1 *m mQc m1 *m (mL m1)^T) *t mPinf m2
            + mPinf m1 *t (mL m2 *m mQc m2 *m (mL m2)^T);
     mPinf := mPinf m1 *t mPinf m2;
     mH := fun X => mH m1 X *t mH m2 X;
     mA := fun X1 X2 => mA m1 X1 X2 *t mA m2 X1 X2;
     mQ := fun X1 X2 => mPinf m1 *t mQ m2 X1 X2 + mQ m1 X1 X2 *t mPinf m2
                        - mQ m1 X1 X2 *t mQ m2 X1 X2;
     mReset := fun i => mReset m1 i *t mReset m2 i |}.

(** Wrapper, kernels/base.py:439-473, is the wrapped model; Scale,
    kernels/base.py:476-486, overrides stationary_covariance and noise only. *)
Definition scale_model (a : R) (m : model) : model :=
  {| md := md m; mF := mF m; mp := mp m; mL := mL m;
     mQc := a *: mQc m; mPinf := a *: mPinf m;
     mH := mH m; mA := mA m; mQ := mQ m; mReset := mReset m |}.

(** ExpSineSquared.stationary_covariance, kernels/base.py:1181-1182: only
    stationary_covariance is overridden. *)
Definition ess_wrap (sigma : R) (m : model) : model :=
  {| md := md m; mF := mF m; mp := mp m; mL := mL m;
     mQc := mQc m; mPinf := sq sigma *: mPinf m;
     mH := mH m; mA := mA m; mQ := mQ m; mReset := mReset m |}.

(** jnp.abs(Q) < 1e-14 -> 0, entrywise. *)
Definition flush_mx m n (Q : 'M[R]_(m, n)) : 'M[R]_(m, n) := map_mx flush Q.

End Defaults.

Local Open Scope R_scope.

(** Constant, kernels/base.py:502-554.  transition_matrix calls the
    non-existent method self.eye, i.e. it raises: see [transition_raises] in
    Model/Kernel.v; the value given to [mA] here is never reached. *)
Definition constant_model (sigma : R) : model :=
  {| md := 1; mF := mat 1 1 [:: [:: 0]];
     mp := 1; mL := mat 1 1 [:: [:: 1]]; mQc := mat 1 1 [:: [:: 0]];
     mPinf := mat 1 1 [:: [:: sq sigma]];
     mH := fun _ => mat 1 1 [:: [:: 1]];
     mA := fun _ _ => mat 1 1 [:: [:: 1]];
     mQ := fun _ _ => mat 1 1 [:: [:: 0]];
     mReset := default_reset 1 |}.

(** SHO, kernels/base.py:557-729. *)
Section SHO.
Variables (w q sigma : R).

(** eta, base.py:603 *)
Definition sho_eta : R := sqrt (Rabs (1 - 1 / (4 * q ^ 2))).
Let n := sho_eta.

(** design_matrix, base.py:605-609; stationary_covariance, 611-613;
    noise, 615-618; observation_matrix, 620-623; noise_effect_matrix, 625-627. *)
Definition sho_F : 'M[R]_2 := mat 2 2 [:: [:: 0; 1]; [:: - sq w; - w / q]].
Definition sho_Pinf : 'M[R]_2 :=
  smul (sq sigma) (mat 2 2 [:: [:: 1; 0]; [:: 0; sq w]]).
Definition sho_Qc : 'M[R]_1 := mat 1 1 [:: [:: 2 * w ^ 3 * sq sigma / q]].
Definition sho_H : 'M[R]_(1, 2) := mat 1 2 [:: [:: 1; 0]].
Definition sho_L : 'M[R]_(2, 1) := mat 2 1 [:: [:: 0]; [:: 1]].

(** transition_matrix, base.py:629-666. *)
Definition sho_A_critical (dt : R) : 'M[R]_2 :=
  smul (exp (- w * dt)) (mat 2 2 [:: [:: 1 + w * dt; dt]; [:: - sq w * dt; 1 - w * dt]]).
Definition sho_A_underdamped (dt : R) : 'M[R]_2 :=
  let f := 2 * n * q in
  let x := n * w * dt in
  smul (exp (- (1 / 2) * w * dt / q)) (mat 2 2 [:: [:: cos x + sin x / f; sin x / (w * n)];
                [:: - w * sin x / n; cos x - sin x / f]]).
Definition sho_A_overdamped (dt : R) : 'M[R]_2 :=
  let f := 2 * n * q in
  let x := n * w * dt in
  smul (exp (- (1 / 2) * w * dt / q)) (mat 2 2 [:: [:: cosh x + sinh x / f; sinh x / (w * n)];
                [:: - w * sinh x / n; cosh x - sinh x / f]]).
Definition sho_A (dt : R) : 'M[R]_2 :=
  if allclose q (1 / 2) then sho_A_critical dt
  else if Rltb (1 / 2) q then sho_A_underdamped dt else sho_A_overdamped dt.

(** process_noise, base.py:668-729. *)
Definition sho_Q_critical (dt : R) : 'M[R]_2 :=
  let arg := 2 * w * dt in
  let argexp := arg * exp (- arg) in
  let em1 := expm1 (- arg) in
  let wdt := w * dt in
  let Q11 := - em1 - argexp * (1 + wdt) in
  let Q12 := w * wdt * argexp in
  let Q22 := sq w * (- em1 - argexp * (-1 + wdt)) in
  smul (sq sigma) (mat 2 2 [:: [:: Q11; Q12]; [:: Q12; Q22]]).
Definition sho_Q_underdamped_raw (dt : R) : 'M[R]_2 :=
  let f := 2 * n * q in
  let a := w * dt / q in
  let x := n * w * dt in
  let sin2 := sin (2 * x) in
  let sinsq := sq (sin x) in
  let ex := exp (- a) in
  let em1 := expm1 (- a) in
  let Q11 := - em1 - (sin2 / f + sinsq / (2 * sq n * sq q)) * ex in
  let Q12 := ex * (w * sinsq / (sq n * q)) in
  let Q22 := sq w * (- em1 + ex * (sin2 / f - sinsq / (2 * sq n * sq q))) in
  smul (sq sigma) (mat 2 2 [:: [:: Q11; Q12]; [:: Q12; Q22]]).
Definition sho_Q_underdamped (dt : R) : 'M[R]_2 := flush_mx (sho_Q_underdamped_raw dt).
Definition sho_Q_overdamped (dt : R) : 'M[R]_2 :=
  let f := 2 * n * q in
  let a := w * dt / q in
  let x := n * w * dt in
  let sinh2 := sinh (2 * x) in
  let sinhsq := sq (sinh x) in
  let ex := exp (- a) in
  let em1 := expm1 (- a) in
  let Q11 := - em1 - (sinh2 / f + sinhsq / (2 * sq n * sq q)) * ex in
  let Q12 := ex * (w * sinhsq / (sq n * q)) in
  let Q22 := sq w * (- em1 + ex * (sinh2 / f - sinhsq / (2 * sq n * sq q))) in
  smul (sq sigma) (mat 2 2 [:: [:: Q11; Q12]; [:: Q12; Q22]]).
Definition sho_Q (dt : R) : 'M[R]_2 :=
  if allclose q (1 / 2) then sho_Q_critical dt
  else if Rltb (1 / 2) q then sho_Q_underdamped dt else sho_Q_overdamped dt.

Definition sho_model : model :=
  {| md := 2; mF := sho_F; mp := 1; mL := sho_L; mQc := sho_Qc; mPinf := sho_Pinf;
     mH := fun _ => sho_H;
     mA := fun X1 X2 => sho_A (lag X1 X2);
     mQ := fun X1 X2 => sho_Q (lag X1 X2);
     mReset := default_reset 2 |}.
End SHO.

(** Exp, kernels/base.py:732-800; lam = 1 / scale (base.py:764). *)
Section Exp.
Variables (scale sigma : R).
Let lam := 1 / scale.
Definition exp_model : model :=
  {| md := 1; mF := mat 1 1 [:: [:: - lam]];
     mp := 1; mL := mat 1 1 [:: [:: 1]];
     mQc := mat 1 1 [:: [:: 2 * lam * sq sigma]];
     mPinf := smul (sq sigma) (mat 1 1 [:: [:: 1]]);
     mH := fun _ => mat 1 1 [:: [:: 1]];
     mA := fun X1 X2 => mat 1 1 [:: [:: exp (- lag X1 X2 / scale)]];
     mQ := fun X1 X2 =>
             mat 1 1 [:: [:: sq sigma * (1 - exp (-2 * lag X1 X2 * lam))]];
     mReset := default_reset 1 |}.
End Exp.

(** Matern32, kernels/base.py:803-884; lam = sqrt(3) / scale (base.py:834). *)
Section Matern32.
Variables (scale sigma : R).
Let lam := sqrt 3 / scale.
Definition m32_A (dt : R) : 'M[R]_2 :=
  smul (exp (- lam * dt)) (mat 2 2 [:: [:: 1 + lam * dt; dt];
                                   [:: - sq lam * dt; 1 - lam * dt]]).
Definition m32_Q (dt : R) : 'M[R]_2 :=
  let arg := 2 * lam * dt in
  let d2l3 := 2 * sq dt * lam ^ 3 in
  let ex := exp (- arg) in
  let em1 := expm1 (- arg) in
  smul (sq sigma) (mat 2 2
    [:: [:: - em1 - arg * (lam * dt + 1) * ex; d2l3 * ex];
        [:: d2l3 * ex; sq lam * (- em1 - arg * (lam * dt - 1) * ex)]]).
Definition matern32_model : model :=
  {| md := 2; mF := mat 2 2 [:: [:: 0; 1]; [:: - sq lam; -2 * lam]];
     mp := 1; mL := mat 2 1 [:: [:: 0]; [:: 1]];
     mQc := mat 1 1 [:: [:: 4 * lam ^ 3 * sq sigma]];
     mPinf := smul (sq sigma) (mat 2 2 [:: [:: 1; 0]; [:: 0; sq lam]]);
     mH := fun _ => mat 1 2 [:: [:: 1; 0]];
     mA := fun X1 X2 => m32_A (lag X1 X2);
     mQ := fun X1 X2 => m32_Q (lag X1 X2);
     mReset := default_reset 2 |}.
End Matern32.

(** Matern52, kernels/base.py:887-1006; lam = sqrt(5) / scale (base.py:919). *)
Section Matern52.
Variables (scale sigma : R).
Let lam := sqrt 5 / scale.
Definition m52_F : 'M[R]_3 :=
  let lam2 := sq lam in
  let lam3 := lam2 * lam in
  mat 3 3 [:: [:: 0; 1; 0]; [:: 0; 0; 1]; [:: - lam3; -3 * lam2; -3 * lam]].
Definition m52_Pinf : 'M[R]_3 :=
  let lam2 := sq lam in
  let lam2o3 := lam2 / 3 in
  smul (sq sigma) (mat 3 3 [:: [:: 1; 0; - lam2o3]; [:: 0; lam2o3; 0];
                           [:: - lam2o3; 0; sq lam2]]).
Definition m52_A (dt : R) : 'M[R]_3 :=
  let lam2 := sq lam in
  let d2 := sq dt in
  let a11 := 1 / 2 * lam2 * d2 + lam * dt + 1 in
  let a12 := dt * (lam * dt + 1) in
  let a13 := 1 / 2 * d2 in
  let a21 := - (1 / 2) * lam * lam2 * d2 in
  let a22 := - lam2 * d2 + lam * dt + 1 in
  let a23 := 1 / 2 * dt * (2 - lam * dt) in
  let a31 := 1 / 2 * lam2 * lam * dt * (lam * dt - 2) in
  let a32 := lam2 * dt * (lam * dt - 3) in
  let a33 := 1 / 2 * lam2 * d2 - 2 * lam * dt + 1 in
  smul (exp (- lam * dt)) (mat 3 3 [:: [:: a11; a12; a13]; [:: a21; a22; a23];
                                   [:: a31; a32; a33]]).
Definition m52_Q (dt : R) : 'M[R]_3 :=
  let dtl := dt * lam in
  let l2 := sq lam in
  let dt2 := sq dt in
  let l4 := lam ^ 4 in
  let dt4 := dt ^ 4 in
  let l5 := lam ^ 5 in
  let dt2l5 := dt2 * l5 in
  let arg := -2 * dtl in
  let ex := exp arg in
  let em1 := expm1 arg in
  let Q11 := -3 * em1 - 2 * dtl * ex * (3 + dtl * (3 + dtl * (2 + dtl))) in
  let Q12 := 2 * ex * dt4 * l5 in
  let Q13 := - l2 * (- em1 + 2 * dtl * ex * (-1 + dtl * (-1 + dtl * (-2 + dtl)))) in
  let Q22 := l2 * (- em1 - 2 * dtl * ex * (1 + dtl * sq (1 - dtl))) in
  let Q23 := 2 * ex * dt2l5 * sq (-2 + dtl) in
  let Q33 := l4 * (-3 * em1 - 2 * dtl * ex * (-5 + dtl * (11 + dtl * (-6 + dtl)))) in
  smul (sq sigma / 3) (mat 3 3 [:: [:: Q11; Q12; Q13]; [:: Q12; Q22; Q23];
                                 [:: Q13; Q23; Q33]]).
Definition matern52_model : model :=
  {| md := 3; mF := m52_F; mp := 1; mL := mat 3 1 [:: [:: 0]; [:: 0]; [:: 1]];
     mQc := mat 1 1 [:: [:: 16 * lam ^ 5 * sq sigma / 3]];
     mPinf := m52_Pinf;
     mH := fun _ => mat 1 3 [:: [:: 1; 0; 0]];
     mA := fun X1 X2 => m52_A (lag X1 X2);
     mQ := fun X1 X2 => m52_Q (lag X1 X2);
     mReset := default_reset 3 |}.
End Matern52.

(** Cosine, kernels/base.py:1009-1071; omega = 2 pi / scale (base.py:1034). *)
Section Cosine.
Variables (scale sigma : R).
Let omega := 2 * PI / scale.
Definition cosine_model : model :=
  {| md := 2; mF := mat 2 2 [:: [:: 0; - omega]; [:: omega; 0]];
     mp := 1; mL := mat 2 1 [:: [:: 0]; [:: 1]];
     mQc := mat 1 1 [:: [:: 0]];
     mPinf := smul (sq sigma) (mat 2 2 [:: [:: 1; 0]; [:: 0; 1]]);
     mH := fun _ => mat 1 2 [:: [:: 1; 0]];
     mA := fun X1 X2 =>
             let arg := omega * lag X1 X2 in
             mat 2 2 [:: [:: cos arg; - sin arg]; [:: sin arg; cos arg]];
     mQ := fun _ _ => 0%R;
     mReset := default_reset 2 |}.
End Cosine.

(** ExpSineSquared.PeriodicTerm, kernels/base.py:1185-1253. *)
Section Periodic.
Variables (j : nat) (omega scale : R).

(** Ij, base.py:1229-1238: gammaln(k+1) = ln k!, gammaln(k+j+1) = ln (k+j)!. *)
Definition bessel_term (x : R) (k : nat) : R :=
  exp (- ln (INR (fact k)) - ln (INR (fact (k + j)))
       + INR (2 * k + j) * ln (x / 2)).
Definition Ij (x : R) (terms : nat) : R :=
  (\sum_(0 <= k < terms) bessel_term x k)%R.

(** stationary_covariance, base.py:1209-1215 *)
Definition periodic_q2 : R :=
  let arg := 1 / scale in
  let coeff := if (j == 0)%N then 1 else 2 in
  coeff * Ij arg 50 / exp arg.

Definition periodic_model : model :=
  {| md := 2; mF := mat 2 2 [:: [:: 0; - omega * INR j]; [:: omega * INR j; 0]];
     mp := 2; mL := 1%:M%R; mQc := 0%R;
     mPinf := smul (periodic_q2) (mat 2 2 [:: [:: 1; 0]; [:: 0; 1]]);
     mH := fun _ => mat 1 2 [:: [:: 1; 0]];
     mA := fun X1 X2 =>
             let arg := INR j * omega * lag X1 X2 in
             mat 2 2 [:: [:: cos arg; - sin arg]; [:: sin arg; cos arg]];
     mQ := fun _ _ => 0%R;
     mReset := default_reset 2 |}.
End Periodic.

(** ExpSineSquared.__init__, kernels/base.py:1128-1169. *)
Section ExpSineSquared.
Variables (period gamma sigma : R).
Definition ess_scale : R := 2 / gamma.
Definition ess_omega : R := 2 * PI / period.

(** Automatic order, base.py:1147-1163. *)
Definition ess_order (order : option nat) : nat :=
  match order with
  | Some J => J
  | None => let ell := sqrt ess_scale in
            if Rleb 1 ell then 4%N else if Rleb (1 / 2) ell then 6%N
            else if Rleb (1 / 4) ell then 8%N else 16%N
  end.

(** error_bound, base.py:1171-1179. *)
Definition ess_error_bound (J : nat) : R := exp (1 - ess_scale) / INR (fact (J + 1)).
End ExpSineSquared.
