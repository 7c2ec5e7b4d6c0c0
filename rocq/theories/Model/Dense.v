(** src/smolgp/kernels/dense.py: the dense reference kernels.
    Not modelled: __repr__, Delta (lines 241-254, not called), and the tinygp base class, which
    only builds the matrix of evaluate over all pairs. *)
From Coq Require Import Reals.
From mathcomp Require Import all_ssreflect.
From Verif.Prelude Require Import Rstruct.
From Verif.Model Require Import Kernel.
Set Implicit Arguments.
Unset Strict Implicit.
Unset Printing Implicit Defensive.
Local Open Scope R_scope.

(** tinygp kernel trees as seen by isinstance: Sum/qsSum, Product/qsProduct, or any other
    kernel of type A. *)
Inductive dtree (A : Type) := DLeaf of A | DSum of dtree A & dtree A | DProd of dtree A & dtree A.
Arguments DLeaf {A}. Arguments DSum {A}. Arguments DProd {A}.

(** extract_leaf_kernels(kernel, all=False), dense.py:20-28.  The recursive calls do not pass
    [all] on, so they run with all=False; the results are kernels. *)
Fixpoint dense_extract_rec {A} (k : dtree A) : seq (dtree A) :=
  match k with
  | DSum k1 k2 => dense_extract_rec k1 ++ dense_extract_rec k2
  | _ => [:: k]
  end.
Definition dense_extract_leaf_kernels {A} (k : dtree A) (all : bool) : seq (dtree A) :=
  match k with
  | DSum k1 k2 => dense_extract_rec k1 ++ dense_extract_rec k2
  | DProd k1 k2 => if all then dense_extract_rec k1 ++ dense_extract_rec k2 else [:: k]
  | DLeaf _ => [:: k]
  end.

(** A coordinate passed to evaluate: a number, a pair, or a triple of numbers. *)
Inductive dcoord := D1 of R | D2 of R & R | D3 of R & R & R.

(** unpack_coordinates(X1, X2), dense.py:31-63: ((t1, delta1, instid1), (t2, delta2, instid2)).
    The shape of X1 decides; unpacking an X2 of another shape raises.  A pair is read as
    (t, instid). *)
Definition unpack_coordinates (X1 X2 : dcoord) : err + ((R * R * R) * (R * R * R)) :=
  match X1 with
  | D1 t1 => match X2 with
             | D1 t2 => inr ((t1, 0, 0), (t2, 0, 0))
             | _ => inl TypeError                   (* jnp.zeros_like(tuple), then t1 - t2 *)
             end
  | D2 t1 instid1 => match X2 with
                     | D1 _ => inl TypeError        (* iteration over a 0-d array *)
                     | D2 t2 instid2 => inr ((t1, 0, instid1), (t2, 0, instid2))
                     | D3 _ _ _ => inl ValueError   (* too many values to unpack *)
                     end
  | D3 t1 delta1 instid1 => match X2 with
                            | D1 _ => inl TypeError
                            | D2 _ _ => inl ValueError
                            | D3 t2 delta2 instid2 => inr ((t1, delta1, instid1), (t2, delta2, instid2))
                            end
  end.

(** The fields of SHOKernel and IntegratedSHOKernel. *)
Record dense_sho := DenseSho { dS : R; dw : R; dQ : R; drho : R; dtau : R; dsig : R }.

(** SHOKernel.__init__, dense.py:75-121, and the same lines of IntegratedSHOKernel.__init__,
    dense.py:174-225: the arguments are the optional keyword arguments. *)
Definition dense_init (S w Q rho tau sig : option R) : err + dense_sho :=
  match S, w, Q with
  | Some S', Some w', Some Q' =>
      inr {| dS := S'; dw := w'; dQ := Q'; drho := 2 * PI / w'; dtau := 2 * Q' / w';
             dsig := sqrt (S' * w' * Q') |}
  | _, _, _ =>
      match rho, tau, sig with
      | Some rho', Some tau', Some sig' =>
          let w' := 2 * PI / rho' in
          let Q' := tau' * w' / 2 in
          inr {| dS := sig' ^ 2 / (w' * Q'); dw := w'; dQ := Q'; drho := rho'; dtau := tau';
                 dsig := sig' |}
      | _, _, _ => inl ValueError
      end
  end.

(** SHOKernel.evaluate, dense.py:123-148. *)
Definition dense_sho_evaluate (p : dense_sho) (X1 X2 : dcoord) : err + R :=
  match unpack_coordinates X1 X2 with
  | inl e => inl e
  | inr ((t1, delta1, instid1), (t2, delta2, instid2)) =>
      let Delta := Rabs (t1 - t2) in
      let eta := sqrt (Rabs (1 - 1 / (4 * dQ p ^ 2))) in
      let k := cos (eta * dw p * Delta) + 1 / (2 * eta * dQ p) * sin (eta * dw p * Delta) in
      inr (dsig p ^ 2 * exp (- Delta / dtau p) * k)
  end.

Definition Reqb (x y : R) : bool := if Req_EM_T x y is left _ then true else false.
(** jnp.where on numbers *)
Definition where_ (c : bool) (x y : R) : R := if c then x else y.

Section IntegratedSHO.
Variable p : dense_sho.
Let S := dS p. Let w := dw p. Let Q := dQ p. Let tau := dtau p. Let sig := dsig p.

(** self.eta and self.a, dense.py:227-228 *)
Definition d_eta : R := sqrt (Rabs (1 - 1 / (4 * Q ^ 2))).
Let eta := d_eta.
Definition d_a : R := 1 / (2 * Q * eta).
Let a := d_a.

(** latent_process, dense.py:256-263 *)
Definition latent_process (Delta : R) : R :=
  let k := cos (eta * w * Delta) + 1 / (2 * eta * Q) * sin (eta * w * Delta) in
  sig ^ 2 * exp (- Delta / tau) * k.

(** I0, dense.py:279-283 *)
Definition I0 (y : R) : R := exp (- a * y) * ((1 - a ^ 2) * sin y - 2 * a * cos y).

(** I1, dense.py:285-297 *)
Definition f1 (y : R) : R :=
  let num := exp (- a * y) * (1 - a ^ 2) * (cos y + a * sin y) in
  let den := eta * w * (1 + a ^ 2) in
  num / den.
Definition I1 (lower upper : R) : R := f1 upper - f1 lower.

(** I2, dense.py:299-309 *)
Definition f2 (y : R) : R :=
  let num := - 2 * a * exp (- a * y) * (sin y - a * cos y) in
  let den := eta * w * (1 + a ^ 2) in
  num / den.
Definition I2 (lower upper : R) : R := f2 upper - f2 lower.

(** integrated_separate, dense.py:311-327 *)
Definition integrated_separate (Delta delta1 delta2 : R) : R :=
  let y1 := eta * w * ((delta1 + delta2) / 2 + Delta) in
  let y2 := eta * w * ((delta1 + delta2) / 2 + Delta - delta1) in
  let y3 := eta * w * ((delta1 - delta2) / 2 + Delta) in
  let y4 := eta * w * ((delta1 - delta2) / 2 + Delta - delta1) in
  let pre := (S * Q) / (delta1 * delta2 * eta * (1 + a ^ 2)) in
  pre * (I1 y1 y2 - I2 y1 y2 - I1 y3 y4 + I2 y3 y4).

(** integrated_overlap, dense.py:329-341 *)
Definition integrated_overlap (delta : R) : R :=
  let y1 := eta * w * delta in
  let y2 := 0 in
  let pre := (2 * S * Q) / (delta * delta * eta * (1 + a ^ 2)) in
  pre * (I1 y1 y2 - I2 y1 y2 + 2 * a * delta).

(** integrated_single, dense.py:343-355 *)
Definition integrated_single (Delta delta : R) : R :=
  let y1 := eta * w * (delta / 2 + Delta) in
  let y2 := eta * w * (Delta - delta / 2) in
  let pre := - (S * Q) / (delta * eta) in
  pre / (1 + a ^ 2) * (I0 y2 - I0 y1).

(** timescale, dense.py:386 and 448 *)
Definition timescale : R := 2 * PI / w.

(** full_single_integral, dense.py:357-421 *)
Definition calc_integral (p3 delta : R) : R :=
  let delta_left := p3 in
  let Delta_left := delta_left / 2 in
  let int := integrated_single Delta_left delta_left * delta_left in
  let delta_right := delta - p3 in
  let Delta_right := delta_right / 2 in
  let int := int + integrated_single Delta_right delta_right * delta_right in
  int / delta.
Definition full_single_integral (Delta delta : R) : R :=
  let p2 := delta in
  let p3 := delta / 2 + Delta in
  let result := 0 in
  let use_latent := Rltb (Rabs (delta / timescale)) (/ 10 ^ 4) in
  let result := where_ use_latent (latent_process Delta) result in
  let notothers := ~~ use_latent in
  let case1 := Rleb p2 p3 in
  let result := where_ (case1 && notothers) (integrated_single Delta delta) result in
  let notothers := notothers && ~~ case1 in
  let case2 := Rltb p3 p2 in
  where_ (case2 && notothers) (calc_integral p3 delta) result.

(** calc_case3, dense.py:489-544 *)
Definition calc_case3 (p1 p2 p3 p4 delta1 delta2 : R) : R :=
  let delta1_1 := p3 - p1 in
  let delta2_1 := p4 - p3 in
  let Delta_1 := (p3 + delta2_1 / 2) - (p1 + delta1_1 / 2) in
  let int_case3 := integrated_separate Delta_1 delta1_1 delta2_1 * (delta1_1 * delta2_1) in
  let delta1_2 := p2 - p3 in
  let delta2_2 := p4 - p2 in
  let Delta_2 := (p2 + delta2_2 / 2) - (p3 + delta1_2 / 2) in
  let int_case3 := where_ (Reqb p2 p3) int_case3
        (int_case3 + integrated_separate Delta_2 delta1_2 delta2_2 * (delta1_2 * delta2_2)) in
  let delta_overlap := p2 - p3 in
  let int_case3 := where_ (Reqb p2 p3) int_case3
        (int_case3 + integrated_overlap delta_overlap * delta_overlap ^ 2) in
  int_case3 / (delta1 * delta2).

(** calc_case4, dense.py:555-600 *)
Definition calc_case4 (p1 p2 p3 p4 delta1 delta2 : R) : R :=
  let delta_overlap := delta2 in
  let int_case4 := integrated_overlap delta_overlap * delta_overlap ^ 2 in
  let delta1_1 := p3 - p1 in
  let delta2_1 := p4 - p3 in
  let Delta_1 := (p3 + delta2_1 / 2) - (p1 + delta1_1 / 2) in
  let int_case4 := where_ (Reqb p1 p3) int_case4
        (int_case4 + integrated_separate Delta_1 delta1_1 delta2_1 * (delta1_1 * delta2_1)) in
  let delta1_2 := p2 - p4 in
  let delta2_2 := p4 - p3 in
  let Delta_2 := (p4 + delta1_2 / 2) - (p3 + delta2_2 / 2) in
  let int_case4 := where_ (Reqb p2 p4) int_case4
        (int_case4 + integrated_separate Delta_2 delta1_2 delta2_2 * (delta1_2 * delta2_2)) in
  int_case4 / (delta1 * delta2).

(** The conditions of the six assignments to k in evaluate, in order: each is "caseN &
    notothers", dense.py:449-603 (delta1 >= delta2 after the swap). *)
Definition dispatch (Delta delta1 delta2 : R) : seq bool :=
  let p2 := delta1 in
  let p3 := (delta1 - delta2) / 2 + Delta in
  let p4 := p3 + delta2 in
  let use_latent := Rltb (Rabs (delta1 / timescale)) (/ 10 ^ 8) in
  let notothers := ~~ use_latent in
  let case0 := Rltb (Rabs (delta2 / timescale)) (/ 10 ^ 8) in
  let c0 := case0 && notothers in
  let notothers := notothers && ~~ case0 in
  let case1 := Reqb Delta 0 && Reqb delta1 delta2 in
  let c1 := case1 && notothers in
  let notothers := notothers && ~~ case1 in
  let case2 := Rleb ((delta1 + delta2) / 2) Delta in
  let c2 := case2 && notothers in
  let notothers := notothers && ~~ case2 in
  let overlap := Rltb Delta ((delta1 + delta2) / 2) in
  let case3 := overlap && Rltb p2 p4 in
  let c3 := case3 && notothers in
  let notothers := notothers && ~~ case3 in
  let case4 := overlap && Rleb p4 p2 in
  let c4 := case4 && notothers in
  [:: use_latent; c0; c1; c2; c3; c4].

(** evaluate, dense.py:423-606: k starts as zeros_like(Delta) and is overwritten by jnp.where
    under the conditions above.  (All branches are evaluated by jnp.where; the values of the
    branches not taken are discarded, so a division by 0 in one of them has no effect.) *)
Definition integrated_evaluate (X1 X2 : dcoord) : err + R :=
  match unpack_coordinates X1 X2 with
  | inl e => inl e
  | inr ((t1, delta1, instid1), (t2, delta2, instid2)) =>
      let Delta := Rabs (t1 - t2) in
      let '(delta1, delta2) := (Rmax delta1 delta2, Rmin delta1 delta2) in
      let p1 := 0 in
      let p2 := delta1 in
      let p3 := (delta1 - delta2) / 2 + Delta in
      let p4 := p3 + delta2 in
      let k := 0 in
      let c := nth false (dispatch Delta delta1 delta2) in
      let k := where_ (c 0%N) (latent_process Delta) k in
      let k := where_ (c 1%N) (full_single_integral Delta delta1) k in
      let k := where_ (c 2%N) (integrated_overlap delta1) k in
      let k := where_ (c 3%N) (integrated_separate Delta delta1 delta2) k in
      let k := where_ (c 4%N) (calc_case3 p1 p2 p3 p4 delta1 delta2) k in
      let k := where_ (c 5%N) (calc_case4 p1 p2 p3 p4 delta1 delta2) k in
      inr k
  end.
End IntegratedSHO.
