(** The sequential state-space solver:
    src/smolgp/solvers/{kalman,rts,solver}.py. *)
From mathcomp Require Import all_ssreflect all_algebra.
From Verif.Model Require Import Jax Ssm.
Set Implicit Arguments.
Unset Strict Implicit.
Unset Printing Implicit Defensive.
Import Order.TTheory GRing.Theory Num.Theory.
Local Open Scope ring_scope.

Section Sequential.
Variable F : realFieldType.

Section Dim.
Variable d : nat.

(** Output of one filter step: (m_k, P_k, m_pred, P_pred, v_k, S_k).
    State means are column vectors; v_k (shape (1,)) and S_k (shape (1,1)) are
    1x1 matrices. *)
Definition kf_out : Type :=
  ('cV[F]_d * 'M[F]_d * 'cV[F]_d * 'M[F]_d * 'M[F]_1 * 'M[F]_1)%type.

Definition o_m (o : kf_out) : 'cV[F]_d := let: (m, _, _, _, _, _) := o in m.
Definition o_P (o : kf_out) : 'M[F]_d := let: (_, P, _, _, _, _) := o in P.
Definition o_mp (o : kf_out) : 'cV[F]_d := let: (_, _, m, _, _, _) := o in m.
Definition o_Pp (o : kf_out) : 'M[F]_d := let: (_, _, _, P, _, _) := o in P.
Definition o_v (o : kf_out) : 'M[F]_1 := let: (_, _, _, _, v, _) := o in v.
Definition o_S (o : kf_out) : 'M[F]_1 := let: (_, _, _, _, _, Sv) := o in Sv.

(** The inner function [step] of kalman_filter, solvers/kalman.py:58-105. *)
Definition kf_step (A Q : F -> F -> 'M[F]_d) (H : F -> 'M[F]_(1, d))
    (R t y : seq F) (carry : 'cV[F]_d * 'M[F]_d) (k : nat)
  : ('cV[F]_d * 'M[F]_d) * kf_out :=
  let: (m_prev, P_prev) := carry in
  let Delta := if (0 < k)%N then t`_k - t`_k.-1 else 0 in
  let A_prev := A 0 Delta in
  let Q_prev := Q 0 Delta in
  let m_pred := A_prev *m m_prev in
  let P_pred := A_prev *m P_prev *m A_prev^T + Q_prev in
  let H_k := H t`_k in
  let y_pred := H_k *m m_pred in
  let v_k := (y`_k)%:M - y_pred in
  let S_k := H_k *m P_pred *m H_k^T + (R`_k)%:M in
  let K_k := (solve S_k^T (P_pred *m H_k^T)^T)^T in
  let m_k := m_pred + K_k *m v_k in
  let P_k := P_pred - K_k *m S_k *m K_k^T in
  ((m_k, P_k), (m_k, P_k, m_pred, P_pred, v_k, S_k)).

(** kalman_filter, solvers/kalman.py:42-112. *)
Definition kalman_filter (A Q : F -> F -> 'M[F]_d) (H : F -> 'M[F]_(1, d))
    (R t y : seq F) (m0 : 'cV[F]_d) (P0 : 'M[F]_d) : seq kf_out :=
  (lax_scan (kf_step A Q H R t y) (m0, P0) (arange (size t))).2.

(** The inner function [step] of rts_smoother, solvers/rts.py:35-74. *)
Definition rts_step (A : F -> F -> 'M[F]_d) (t : seq F)
    (mf : seq 'cV[F]_d) (Pf : seq 'M[F]_d) (mp : seq 'cV[F]_d) (Pp : seq 'M[F]_d)
    (carry : 'cV[F]_d * 'M[F]_d) (k : nat)
  : ('cV[F]_d * 'M[F]_d) * ('cV[F]_d * 'M[F]_d) :=
  let m_k := nth 0 mf k in
  let P_k := nth 0 Pf k in
  let m_pred_next := nth 0 mp k.+1 in
  let P_pred_next := nth 0 Pp k.+1 in
  let: (m_hat_next, P_hat_next) := carry in
  let Delta_k := t`_k.+1 - t`_k in
  let A_k := A 0 Delta_k in
  let G_k := (solve P_pred_next^T (P_k *m A_k^T)^T)^T in
  let m_hat_k := m_k + G_k *m (m_hat_next - m_pred_next) in
  let P_hat_k := P_k + G_k *m (P_hat_next - P_pred_next) *m G_k^T in
  ((m_hat_k, P_hat_k), (m_hat_k, P_hat_k)).

(** rts_smoother, solvers/rts.py:25-86.  [last] is the numpy index -1. *)
Definition rts_smoother (A : F -> F -> 'M[F]_d) (t : seq F)
    (mf : seq 'cV[F]_d) (Pf : seq 'M[F]_d) (mp : seq 'cV[F]_d) (Pp : seq 'M[F]_d)
  : seq ('cV[F]_d * 'M[F]_d) :=
  let init := (last 0 mf, last 0 Pf) in
  let outputs := (lax_scan (rts_step A t mf Pf mp Pp) init
                           (arange_down (size t))).2 in
  rcons (rev outputs) init.

End Dim.

(** Result of StateSpaceSolver.condition, solvers/solver.py:58-84:
    the state times, the (predicted, filtered, smoothed) means and covariances
    and, when asked for, (v, S). *)
Record conditioned (d : nat) := Conditioned {
  c_t : seq F;
  c_mp : seq 'cV[F]_d; c_Pp : seq 'M[F]_d;
  c_mf : seq 'cV[F]_d; c_Pf : seq 'M[F]_d;
  c_ms : seq 'cV[F]_d; c_Ps : seq 'M[F]_d;
  c_vS : option (seq 'M[F]_1 * seq 'M[F]_1)
}.

Variable k : ssm F.
Let d := sdim k.

(** KalmanFilter, solvers/kalman.py:8-39.  [R] is noise.diagonal(): the noise
    model is a plain list of variances (GaussianProcess always passes a Noise,
    gp.py:383-397, so the [noise is None] branch is a list of zeros). *)
Definition KalmanFilter (t y R : seq F) : seq (kf_out d) :=
  kalman_filter (strans k) (snoise k) (sobs k) R t y 0 (spinf k).

(** RTSSmoother, solvers/rts.py:7-22. *)
Definition RTSSmoother (t : seq F) (o : seq (kf_out d)) : seq ('cV[F]_d * 'M[F]_d) :=
  rts_smoother (strans k) t
    (map (@o_m d) o) (map (@o_P d) o) (map (@o_mp d) o) (map (@o_Pp d) o).

(** StateSpaceSolver.condition, solvers/solver.py:58-84. *)
Definition seq_condition (t y R : seq F) (return_v_S : bool) : conditioned d :=
  let o := KalmanFilter t y R in
  let s := RTSSmoother t o in
  {| c_t := t;
     c_mp := map (@o_mp d) o; c_Pp := map (@o_Pp d) o;
     c_mf := map (@o_m d) o; c_Pf := map (@o_P d) o;
     c_ms := unzip1 s; c_Ps := unzip2 s;
     c_vS := if return_v_S then Some (map (@o_v d) o, map (@o_S d) o) else None |}.

Section Predict.
Variable c : conditioned d.

(** Inner function [kalman], solvers/solver.py:147-160 with index k_prev. *)
Definition pr_kalman (k_prev : nat) (ts : F) : 'cV[F]_d * 'M[F]_d :=
  let dt := ts - (c_t c)`_k_prev in
  let m_k := nth 0 (c_mf c) k_prev in
  let P_k := nth 0 (c_Pf c) k_prev in
  let A_star := strans k 0 dt in
  let Q_star := snoise k 0 dt in
  (A_star *m m_k, A_star *m P_k *m A_star^T + Q_star).

(** Inner function [smooth], solvers/solver.py:162-192. *)
Definition pr_smooth (k_next : nat) (ts : F) (pred : 'cV[F]_d * 'M[F]_d)
  : 'cV[F]_d * 'M[F]_d :=
  let: (m_star_pred, P_star_pred) := pred in
  let m_pred_next := nth 0 (c_mp c) k_next in
  let P_pred_next := nth 0 (c_Pp c) k_next in
  let m_hat_next := nth 0 (c_ms c) k_next in
  let P_hat_next := nth 0 (c_Ps c) k_next in
  let dt := (c_t c)`_k_next - ts in
  let A_k := strans k 0 dt in
  let G_k := (solve P_pred_next^T (P_star_pred *m A_k^T)^T)^T in
  (m_star_pred + G_k *m (m_hat_next - m_pred_next),
   P_star_pred + G_k *m (P_hat_next - P_pred_next) *m G_k^T).

(** Inner functions [retrodict], [interpolate], [extrapolate] and
    [predict_point], solvers/solver.py:194-226; the index -1 of extrapolate is
    K - 1. *)
Definition pr_point (ts : F) : 'cV[F]_d * 'M[F]_d :=
  let K := size (c_t c) in
  let k_next := searchsorted_right (c_t c) ts in
  if (k_next <= 0)%N then pr_smooth 0 ts (0, spinf k)
  else if (K <= k_next)%N then pr_kalman K.-1 ts
  else pr_smooth k_next ts (pr_kalman k_next.-1 ts).

(** StateSpaceSolver.predict, solvers/solver.py:86-232: vmap of predict_point
    over the test times. *)
Definition seq_predict (t_test : seq F) : seq ('cV[F]_d * 'M[F]_d) :=
  map pr_point t_test.

End Predict.
End Sequential.
