(** The parallel state-space solver:
    src/smolgp/solvers/parallel/{kalman,rts,solver}.py. *)
From mathcomp Require Import all_ssreflect all_algebra.
From Verif.Model Require Import Jax Ssm Sequential.
Set Implicit Arguments.
Unset Strict Implicit.
Unset Printing Implicit Defensive.
Import Order.TTheory GRing.Theory Num.Theory.
Local Open Scope ring_scope.

(** ** jax.lax.associative_scan (jax/_src/lax/control_flow/loops.py, [_scan])

    Combine neighbours, scan the half-length list, combine again for the elements
    at even positions, interleave.  The recursion is on the number of elements
    ([fuel]; Proofs/AssocScan.v shows that [size xs] is enough). *)
Section AssociativeScan.
Variables (T : Type) (op : T -> T -> T).

(** fn(elems[0:-1:2], elems[1::2]) *)
Fixpoint combine_pairs (xs : seq T) : seq T :=
  match xs with
  | a :: b :: xs' => op a b :: combine_pairs xs'
  | _ => [::]
  end.
(** elems[0::2] *)
Fixpoint evens (xs : seq T) : seq T :=
  match xs with
  | a :: _ :: xs' => a :: evens xs'
  | _ => xs
  end.
(** even and odd positions merged; the lists have equal lengths, or the first has
    one element more *)
Fixpoint interleave (es os : seq T) : seq T :=
  match es, os with
  | e :: es', o :: os' => e :: o :: interleave es' os'
  | _, _ => es
  end.
Definition zip_with (xs ys : seq T) : seq T := [seq op p.1 p.2 | p <- zip xs ys].

Fixpoint assoc_scan_rec (fuel : nat) (xs : seq T) : seq T :=
  match fuel, xs with
  | fuel'.+1, x0 :: _ :: xs2 =>
      let odd_elems := assoc_scan_rec fuel' (combine_pairs xs) in
      (* zip drops the last odd element when there is an even number of elements,
         as odd_elems[0:-1] does *)
      let even_elems := zip_with odd_elems (evens xs2) in
      interleave (x0 :: even_elems) odd_elems
  | _, _ => xs
  end.
Definition associative_scan (xs : seq T) : seq T := assoc_scan_rec (size xs) xs.
(** reverse=True flips the list before and after. *)
Definition associative_scan_reverse (xs : seq T) : seq T := rev (associative_scan (rev xs)).
End AssociativeScan.

Section Parallel.
Variable F : realFieldType.

(** jnp.diff *)
Definition diff (t : seq F) : seq F := mkseq (fun i => t`_i.+1 - t`_i) (size t).-1.

Section Dim.
Variable d : nat.

(** An element (A, b, C, eta, J) of the filtering scan. *)
Record felem := FElem {
  fA : 'M[F]_d; fb : 'cV[F]_d; fC : 'M[F]_d; feta : 'cV[F]_d; fJ : 'M[F]_d }.

(** make_first_params, parallel/kalman.py:51-75: [Phi0] is Phi(0, 0) and [H0] is
    H(0); y0 and r0 are numbers. *)
Definition make_first_params (Phi0 : 'M[F]_d) (H0 : 'M[F]_(1, d)) (m0 : 'cV[F]_d)
    (P0 : 'M[F]_d) (y0 r0 : F) : felem :=
  let m := Phi0 *m m0 in
  let P := Phi0 *m P0 *m Phi0^T in
  let S_ := H0 *m P *m H0^T + r0%:M in
  let K := (solve S_^T (P *m H0^T)^T)^T in
  let M_ := Phi0^T *m H0^T in
  {| fA := 0;
     fb := m + K *m (y0%:M - H0 *m m);
     fC := P - K *m S_ *m K^T;
     feta := M_ *m solve S_ (y0%:M);
     fJ := M_ *m solve S_ M_^T |}.

(** make_generic_params, parallel/kalman.py:77-102; [Hk] is H(t_delta). *)
Definition make_generic_params (Phi_dt Q_dt : 'M[F]_d) (Hk : 'M[F]_(1, d)) (y r : F) : felem :=
  let S_ := Hk *m Q_dt *m Hk^T + r%:M in
  let K := (solve S_^T (Q_dt *m Hk^T)^T)^T in
  let M_ := Phi_dt^T *m Hk^T in
  {| fA := (1%:M - K *m Hk) *m Phi_dt;
     fb := K *m y%:M;
     fC := (1%:M - K *m Hk) *m Q_dt;
     feta := M_ *m solve S_ (y%:M);
     fJ := M_ *m solve S_ M_^T |}.

(** 0.5 * (X + X.T) *)
Definition symmetrise (X : 'M[F]_d) : 'M[F]_d := 2%:R^-1 *: (X + X^T).

(** _combine_per_pair, parallel/kalman.py:120-144 (and, word for word,
    integrated/parallel/kalman.py:226-249). *)
Definition filter_combine (left right : felem) : felem :=
  let: FElem Ai bi Ci etai Ji := left in
  let: FElem Aj bj Cj etaj Jj := right in
  let D := 1%:M + Ci *m Jj in
  let E := 1%:M + Jj *m Ci in
  {| fA := Aj *m solve D Ai;
     fb := Aj *m solve D (bi + Ci *m etaj) + bj;
     fC := symmetrise (Aj *m solve D Ci *m Aj^T + Cj);
     feta := Ai^T *m solve E (etaj - Jj *m bi) + etai;
     fJ := symmetrise (Ai^T *m solve E Jj *m Ai + Ji) |}.

(** An element (E, g, L) of the smoothing scan. *)
Record selem := SElem { sE : 'M[F]_d; sg : 'cV[F]_d; sL : 'M[F]_d }.

(** make_last_params and make_generic_params, parallel/rts.py:40-55.
    jax.scipy.linalg.solve(., assume_a="pos") reads one triangle of a matrix
    assumed positive definite: here [solve], on a matrix proved positive definite. *)
Definition smooth_last_params (mu : 'cV[F]_d) (P : 'M[F]_d) : selem :=
  {| sE := 0; sg := mu; sL := P |}.
Definition smooth_generic_params (Phi_dt Q_dt : 'M[F]_d) (mu : 'cV[F]_d) (P : 'M[F]_d) : selem :=
  let A := Phi_dt *m P *m Phi_dt^T + Q_dt in
  let b := P *m Phi_dt^T in
  let E := (solve A^T b^T)^T in
  {| sE := E; sg := mu - E *m (Phi_dt *m mu); sL := P - E *m Phi_dt *m P |}.

(** _combine_per_pair, parallel/rts.py:78-87. *)
Definition smooth_combine (left right : selem) : selem :=
  let: SElem Ei gi Li := left in
  let: SElem Ej gj Lj := right in
  {| sE := Ej *m Ei; sg := Ej *m gi + gj; sL := Ej *m Li *m Ej^T + Lj |}.

End Dim.

Variable k : ssm F.
Let d := sdim k.

(** make_associative_params, parallel/kalman.py:43-117: the generic elements use
    H(t_delta), not H at the data coordinate. *)
Definition filter_params (t y R : seq F) : seq (felem d) :=
  make_first_params (strans k 0 0) (sobs k 0) 0 (spinf k) y`_0 R`_0
  :: mkseq (fun i => let dt := (diff t)`_i in
              make_generic_params (strans k 0 dt) (snoise k 0 dt) (sobs k dt) y`_i.+1 R`_i.+1)
           (size t).-1.

(** parallel_kalman_filter, parallel/kalman.py:147-164 *)
Definition parallel_kalman_filter (t y R : seq F) : seq (felem d) :=
  associative_scan (@filter_combine d) (filter_params t y R).

(** postprocess, parallel/kalman.py:167-219: (m_pred, P_pred, v, S) from the
    filtered means b and covariances C. *)
Definition postprocess (t y R : seq F) (b : seq 'cV[F]_d) (C : seq 'M[F]_d) :
    seq ('cV[F]_d * 'M[F]_d * 'M[F]_1 * 'M[F]_1) :=
  let td := diff t in
  mkseq (fun i =>
    let Phi := if i is i'.+1 then strans k 0 td`_i' else 1%:M in
    let Q := if i is i'.+1 then snoise k 0 td`_i' else 0 in
    let m_prev := if i is i'.+1 then nth 0 b i' else 0 in
    let P_prev := if i is i'.+1 then nth 0 C i' else spinf k in
    let m_pred := Phi *m m_prev in
    let P_pred := Phi *m P_prev *m Phi^T + Q in
    let H := sobs k t`_i in
    (m_pred, P_pred, (y`_i)%:M - H *m m_pred, H *m P_pred *m H^T + (R`_i)%:M)) (size t).

(** ParallelKalmanFilter, parallel/kalman.py:7-40, as the same kind of tuple the
    sequential filter returns. *)
Definition ParallelKalmanFilter (t y R : seq F) : seq (kf_out F d) :=
  let e := parallel_kalman_filter t y R in
  let b := map (@fb d) e in
  let C := map (@fC d) e in
  let pp := postprocess t y R b C in
  mkseq (fun i => let: (m_pred, P_pred, v, S_) := nth (0, 0, 0, 0) pp i in
                  (nth 0 b i, nth 0 C i, m_pred, P_pred, v, S_)) (size t).

(** make_associative_params and ParallelRTSSmoother, parallel/rts.py:7-75, 90-105. *)
Definition smooth_params (t : seq F) (mu : seq 'cV[F]_d) (P : seq 'M[F]_d) : seq (selem d) :=
  rcons (mkseq (fun i => let dt := (diff t)`_i in
                  smooth_generic_params (strans k 0 dt) (snoise k 0 dt) (nth 0 mu i) (nth 0 P i))
               (size t).-1)
        (smooth_last_params (last 0 mu) (last 0 P)).
Definition ParallelRTSSmoother (t : seq F) (mu : seq 'cV[F]_d) (P : seq 'M[F]_d) :
    seq ('cV[F]_d * 'M[F]_d) :=
  [seq (sg e, sL e) | e <- associative_scan_reverse (@smooth_combine d) (smooth_params t mu P)].

(** ParallelStateSpaceSolver.condition, parallel/solver.py:59-85, for
    return_v_S = True (Model/Gp.v has the other case). *)
Definition par_condition (t y R : seq F) : conditioned F d :=
  let o := ParallelKalmanFilter t y R in
  let s := ParallelRTSSmoother t (map (@o_m _ d) o) (map (@o_P _ d) o) in
  {| c_t := t;
     c_mp := map (@o_mp _ d) o; c_Pp := map (@o_Pp _ d) o;
     c_mf := map (@o_m _ d) o; c_Pf := map (@o_P _ d) o;
     c_ms := unzip1 s; c_Ps := unzip2 s;
     c_vS := Some (map (@o_v _ d) o, map (@o_S _ d) o) |}.

End Parallel.
