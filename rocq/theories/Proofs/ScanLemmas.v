(** Reading the k-th output of lax_scan. *)
From mathcomp Require Import all_ssreflect all_algebra.
From Verif.Model Require Import Jax.
Set Implicit Arguments.
Unset Strict Implicit.
Unset Printing Implicit Defensive.

Section Scan.
Variables (C X Y : Type) (f : C -> X -> C * Y).

Definition carry_of (c : C) (xs : seq X) : C := foldl (fun c x => (f c x).1) c xs.

Lemma lax_scan_size c xs : size (lax_scan f c xs).2 = size xs.
Proof.
elim: xs c => //= x xs IH c; case: (f c x) => c1 y.
by case: (lax_scan f c1 xs) (IH c1) => c2 ys /= ->.
Qed.

Lemma lax_scan_nth y0 x0 c xs i : (i < size xs)%N ->
  nth y0 (lax_scan f c xs).2 i = (f (carry_of c (take i xs)) (nth x0 xs i)).2.
Proof.
elim: xs c i => //= x xs IH c i; rewrite /carry_of.
case e: (f c x) => [c1 y].
case e2: (lax_scan f c1 xs) => [c2 ys] /=.
case: i => [|i] hi /=; first by rewrite e.
by have := IH c1 i hi; rewrite e2 /= => ->; rewrite e.
Qed.

End Scan.

Lemma carry_of_iotaS C Y (f : C -> nat -> C * Y) c n :
  carry_of f c (iota 0 n.+1) = (f (carry_of f c (iota 0 n)) n).1.
Proof. by rewrite /carry_of -[n.+1]addn1 iotaD foldl_cat add0n. Qed.

Lemma take_iota0 n i : (i <= n)%N -> take i (iota 0 n) = iota 0 i.
Proof. by move=> h; rewrite take_iota (minn_idPl h). Qed.

(** A scan that emits its carry, run over n-1, ..., 0 and reversed, with the
    initial carry appended (solvers/rts.py:77-86). *)
Section Backward.
Variables (T : Type) (f : T -> nat -> T * T).
Hypothesis ff : forall c k, (f c k).2 = (f c k).1.

Definition backward (init : T) (n : nat) : seq T :=
  rcons (rev (lax_scan f init (rev (iota 0 n))).2) init.

Lemma backwardS init n :
  backward init n.+1 = rcons (backward (f init n).1 n) init.
Proof.
rewrite /backward -[n.+1]addn1 iotaD add0n rev_cat /=.
case e: (f init n) => [c y] /=; have := ff init n; rewrite e /= => ->.
by case: (lax_scan f c _) => c2 ys /=; rewrite rev_cons.
Qed.

Lemma size_backward init n : size (backward init n) = n.+1.
Proof. by rewrite size_rcons size_rev lax_scan_size size_rev size_iota. Qed.

Lemma backward_last x0 init n : nth x0 (backward init n) n = init.
Proof.
by rewrite nth_rcons size_rev lax_scan_size size_rev size_iota ltnn eqxx.
Qed.

Lemma backward_nth x0 init n k : (k < n)%N ->
  nth x0 (backward init n) k = (f (nth x0 (backward init n) k.+1) k).1.
Proof.
elim: n init => // n IH init; rewrite ltnS leq_eqVlt backwardS.
have e j : nth x0 (rcons (backward (f init n).1 n) init) j =
    if (j < n.+1)%N then nth x0 (backward (f init n).1 n) j
    else if j == n.+1 then init else x0 by rewrite nth_rcons size_backward.
rewrite !e => /orP[/eqP ->|hk].
  by rewrite ltnSn ltnn eqxx backward_last.
rewrite ltnS (ltnW hk) ltnS hk; exact: IH.
Qed.
End Backward.
