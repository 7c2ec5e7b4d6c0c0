(** The integrated state-space solvers:
    src/smolgp/solvers/integrated/{kalman,rts,solver}.py and
    src/smolgp/solvers/integrated/parallel/{kalman,rts,solver}.py. *)
From mathcomp Require Import all_ssreflect all_algebra.
From Verif.Model Require Import Jax Ssm Sequential Parallel.
Set Implicit Arguments.
Unset Strict Implicit.
Unset Printing Implicit Defensive.
Import Order.TTheory GRing.Theory Num.Theory.
Local Open Scope ring_scope.

(** jnp.nonzero(stateid == 1, size=N)[0]: the indices of the ones, cut or padded
    with 0 to length N. *)
Definition nonzero_ones (stateid : seq nat) (N : nat) : seq nat :=
  take N ([seq i <- iota 0 (size stateid) | nth 0%N stateid i == 1%N] ++ nseq N 0%N).

Section Integrated.
Variable F : realFieldType.

(** ** Bookkeeping: integrated/solver.py:58-76 (and parallel/solver.py:58-77) *)
Section Coords.
Variables (tmid delta : seq F).
Let N := size tmid.

(** Interleaved start and end times, obsid and stateid before sorting. *)
Definition t_unsorted : seq F :=
  flatten (mkseq (fun i => [:: tmid`_i - delta`_i / 2%:R; tmid`_i + delta`_i / 2%:R]) N).
Definition obsid_unsorted : seq nat := flatten (mkseq (fun i => [:: i; i]) N).
Definition stateid_unsorted : seq nat := flatten (mkseq (fun _ => [:: 0%N; 1%N]) N).

(** jnp.lexsort((-stateid, t_states)): stable, by time first, ends (1) before
    starts (0) at equal times. *)
Definition state_le (i j : nat) : bool :=
  (t_unsorted`_i < t_unsorted`_j)
  || ((t_unsorted`_i == t_unsorted`_j)
      && (nth 0%N stateid_unsorted j <= nth 0%N stateid_unsorted i)%N).
Definition sortidx : seq nat := sort state_le (iota 0 (size t_unsorted)).

Definition t_states : seq F := [seq t_unsorted`_i | i <- sortidx].
Definition obsid : seq nat := [seq nth 0%N obsid_unsorted i | i <- sortidx].
Definition stateid : seq nat := [seq nth 0%N stateid_unsorted i | i <- sortidx].
(** jnp.repeat(instid, 2)[sortidx], integrated/parallel/solver.py:75 *)
Definition instid_states (instid : seq nat) : seq nat := [seq nth 0%N instid n | n <- obsid].
End Coords.

(** ** The sequential integrated solver *)
Section Sequential.
Variable d : nat.
(** [Hs] is jax.vmap(H_aug)(X). *)
Variables (A Q : F -> F -> 'M[F]_d) (Hs : seq 'M[F]_(1, d)) (RESET : nat -> 'M[F]_d).
Variables (R y t : seq F) (obs inst state : seq nat).

(** The inner function [step] of integrated_kalman_filter, integrated/kalman.py:67-112. *)
Definition ikf_step (carry : 'cV[F]_d * 'M[F]_d) (k : nat) :
    ('cV[F]_d * 'M[F]_d) * kf_out F d :=
  let: (m_prev, P_prev) := carry in
  let Delta := if (0 < k)%N then t`_k - t`_k.-1 else 0 in
  let n := nth 0%N obs k in
  let A_prev := A 0 Delta in
  let Q_prev := Q 0 Delta in
  let m_pred := A_prev *m m_prev in
  let P_pred := A_prev *m P_prev *m A_prev^T + Q_prev in
  if nth 0%N state k == 0%N then
    let Reset := RESET (nth 0%N inst n) in
    let m_k := Reset *m m_pred in
    let P_k := Reset *m P_pred *m Reset^T in
    ((m_k, P_k), (m_k, P_k, m_pred, P_pred, 0, 0))
  else
    let Hk := nth 0 Hs n in
    let y_pred := Hk *m m_pred in
    let v_k := (y`_n)%:M - y_pred in
    let S_k := Hk *m P_pred *m Hk^T + (R`_n)%:M in
    let K_k := (solve S_k^T (P_pred *m Hk^T)^T)^T in
    let m_k := m_pred + K_k *m v_k in
    let P_k := P_pred - K_k *m S_k *m K_k^T in
    ((m_k, P_k), (m_k, P_k, m_pred, P_pred, v_k, S_k)).

(** integrated_kalman_filter, integrated/kalman.py:54-126: the outputs of all the
    states; (v, S) are selected by [ends_of]. *)
Definition integrated_kalman_filter (m0 : 'cV[F]_d) (P0 : 'M[F]_d) : seq (kf_out F d) :=
  (lax_scan ikf_step (m0, P0) (arange (size t))).2.
Definition ends_vS (o : seq (kf_out F d)) : seq 'M[F]_1 * seq 'M[F]_1 :=
  let ends_idx := nonzero_ones state (size y) in
  ([seq o_v (nth (0, 0, 0, 0, 0, 0) o i) | i <- ends_idx],
   [seq o_S (nth (0, 0, 0, 0, 0, 0) o i) | i <- ends_idx]).

(** The inner function [step] of integrated_rts_smoother, integrated/rts.py:53-94. *)
Definition irts_step (mf : seq 'cV[F]_d) (Pf : seq 'M[F]_d) (mp : seq 'cV[F]_d) (Pp : seq 'M[F]_d)
    (carry : 'cV[F]_d * 'M[F]_d) (k : nat) :
    ('cV[F]_d * 'M[F]_d) * ('cV[F]_d * 'M[F]_d) :=
  let m_k := nth 0 mf k in
  let P_k := nth 0 Pf k in
  let m_pred_next := nth 0 mp k.+1 in
  let P_pred_next := nth 0 Pp k.+1 in
  let: (m_hat_next, P_hat_next) := carry in
  let Delta := t`_k.+1 - t`_k in
  let A_k := A 0 Delta in
  let hat :=
    if nth 0%N state k == 0%N then
      let m_k_pre := nth 0 mp k in
      let P_k_pre := nth 0 Pp k in
      let Reset := RESET (nth 0%N inst (nth 0%N obs k)) in
      let AR := A_k *m Reset in
      let G_k := (solve P_pred_next^T (P_k_pre *m AR^T)^T)^T in
      (m_k_pre + G_k *m (m_hat_next - m_pred_next),
       P_k_pre + G_k *m (P_hat_next - P_pred_next) *m G_k^T)
    else
      let G_k := (solve P_pred_next^T (P_k *m A_k^T)^T)^T in
      (m_k + G_k *m (m_hat_next - m_pred_next),
       P_k + G_k *m (P_hat_next - P_pred_next) *m G_k^T) in
  (hat, hat).

(** integrated_rts_smoother, integrated/rts.py:33-107. *)
Definition integrated_rts_smoother (mf : seq 'cV[F]_d) (Pf : seq 'M[F]_d)
    (mp : seq 'cV[F]_d) (Pp : seq 'M[F]_d) : seq ('cV[F]_d * 'M[F]_d) :=
  let init := (last 0 mf, last 0 Pf) in
  let outputs := (lax_scan (irts_step mf Pf mp Pp) init (arange_down (size t))).2 in
  rcons (rev outputs) init.

(** IntegratedStateSpaceSolver.condition, integrated/solver.py:104-128. *)
Definition int_condition (P0 : 'M[F]_d) (return_v_S : bool) : conditioned F d :=
  let o := integrated_kalman_filter 0 P0 in
  let s := integrated_rts_smoother (map (@o_m _ d) o) (map (@o_P _ d) o)
                                   (map (@o_mp _ d) o) (map (@o_Pp _ d) o) in
  {| c_t := t;
     c_mp := map (@o_mp _ d) o; c_Pp := map (@o_Pp _ d) o;
     c_mf := map (@o_m _ d) o; c_Pf := map (@o_P _ d) o;
     c_ms := unzip1 s; c_Ps := unzip2 s;
     c_vS := if return_v_S then Some (ends_vS o) else None |}.

End Sequential.

(** ** The parallel integrated solver *)
Section Parallel.
Variable d : nat.
Variables (A Q : F -> F -> 'M[F]_d) (Hs : seq 'M[F]_(1, d)) (RESET : nat -> 'M[F]_d).
(** [inst] is the instrument of each state (_state_coords). *)
Variables (R y t : seq F) (obs inst state : seq nat).

(** make_first_params, integrated/parallel/kalman.py:112-132; [Phi0] is Phi(0, 0). *)
Definition int_first_params (Phi0 Reset : 'M[F]_d) (m0 : 'cV[F]_d) (P0 : 'M[F]_d) : felem F d :=
  let transition := Reset *m Phi0 in
  {| fA := Reset; fb := transition *m m0; fC := transition *m P0 *m transition^T;
     feta := 0; fJ := 0 |}.
(** to_start_params, 134-147 *)
Definition int_start_params (Phi_dt Q_dt Reset : 'M[F]_d) : felem F d :=
  {| fA := Reset *m Phi_dt; fb := 0; fC := Reset *m Q_dt *m Reset^T; feta := 0; fJ := 0 |}.
(** to_end_params, 149-176 *)
Definition int_end_params (Phi_dt Q_dt : 'M[F]_d) (Hk : 'M[F]_(1, d)) (yk rk : F) : felem F d :=
  let Sk := Hk *m Q_dt *m Hk^T + rk%:M in
  let Kk := (solve Sk^T (Q_dt *m Hk^T)^T)^T in
  let factor := 1%:M - Kk *m Hk in
  let a := Phi_dt^T *m Hk^T in
  {| fA := factor *m Phi_dt;
     fb := Kk *m yk%:M;
     fC := symmetrise (factor *m Q_dt);
     feta := a *m solve Sk (yk%:M);
     fJ := a *m solve Sk (Hk *m Phi_dt) |}.

(** make_associative_params, 86-223: the first element is always a reset. *)
Definition int_filter_params (P0 : 'M[F]_d) : seq (felem F d) :=
  int_first_params (A 0 0) (RESET (nth 0%N inst 0)) 0 P0
  :: mkseq (fun i =>
       let dt := (diff t)`_i in
       let n := nth 0%N obs i.+1 in
       if nth 0%N state i.+1 == 0%N
       then int_start_params (A 0 dt) (Q 0 dt) (RESET (nth 0%N inst i.+1))
       else int_end_params (A 0 dt) (Q 0 dt) (nth 0 Hs n) y`_n R`_n) (size t).-1.

(** parallel_integrated_kalman_filter, 252-272; _calc_kf_predictions, 275-311;
    _calc_vS, 314-353; ParallelIntegratedKalmanFilter, 7-83. *)
Definition parallel_integrated_kalman_filter (P0 : 'M[F]_d) : seq (felem F d) :=
  associative_scan (@filter_combine F d) (int_filter_params P0).
Definition int_predictions (P0 : 'M[F]_d) (b : seq 'cV[F]_d) (C : seq 'M[F]_d) :
    seq ('cV[F]_d * 'M[F]_d) :=
  let td := diff t in
  mkseq (fun i =>
    let Phi := if i is i'.+1 then A 0 td`_i' else A 0 0 in
    let Qi := if i is i'.+1 then Q 0 td`_i' else Q 0 0 in
    let m_prev := if i is i'.+1 then nth 0 b i' else 0 in
    let P_prev := if i is i'.+1 then nth 0 C i' else P0 in
    (Phi *m m_prev, Phi *m P_prev *m Phi^T + Qi)) (size t).
Definition int_calc_vS (mp : seq 'cV[F]_d) (Pp : seq 'M[F]_d) : seq 'M[F]_1 * seq 'M[F]_1 :=
  let ends_idx := nonzero_ones state (size y) in
  let v i := let n := nth 0%N obs i in (y`_n)%:M - nth 0 Hs n *m nth 0 mp i in
  let S_ i := let n := nth 0%N obs i in
              nth 0 Hs n *m nth 0 Pp i *m (nth 0 Hs n)^T + (R`_n)%:M in
  (map v ends_idx, map S_ ends_idx).

(** integrated/parallel/rts.py:53-137 *)
Definition int_smooth_params (mp : seq 'cV[F]_d) (Pp : seq 'M[F]_d) (mf : seq 'cV[F]_d)
    (Pf : seq 'M[F]_d) : seq (selem F d) :=
  rcons (mkseq (fun i =>
           let dt := (diff t)`_i in
           if nth 0%N state i == 0%N
           then smooth_generic_params (A 0 dt *m RESET (nth 0%N inst i)) (Q 0 dt)
                  (nth 0 mp i) (nth 0 Pp i)
           else smooth_generic_params (A 0 dt) (Q 0 dt) (nth 0 mf i) (nth 0 Pf i)) (size t).-1)
        (smooth_last_params (last 0 mf) (last 0 Pf)).

(** ParallelIntegratedStateSpaceSolver.condition, integrated/parallel/solver.py:109-134. *)
Definition int_par_condition (P0 : 'M[F]_d) (return_v_S : bool) : conditioned F d :=
  let e := parallel_integrated_kalman_filter P0 in
  let mf := map (@fb _ d) e in
  let Pf := map (@fC _ d) e in
  let pred := int_predictions P0 mf Pf in
  let s := associative_scan_reverse (@smooth_combine F d)
             (int_smooth_params (unzip1 pred) (unzip2 pred) mf Pf) in
  {| c_t := t;
     c_mp := unzip1 pred; c_Pp := unzip2 pred;
     c_mf := mf; c_Pf := Pf;
     c_ms := map (@sg _ d) s; c_Ps := map (@sL _ d) s;
     c_vS := if return_v_S then Some (int_calc_vS (unzip1 pred) (unzip2 pred)) else None |}.

End Parallel.
End Integrated.
