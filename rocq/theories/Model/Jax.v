(** The few JAX primitives the solvers rely on.

    Arrays are modelled as [seq]; JAX floats as elements of an ordered field. *)
From mathcomp Require Import all_ssreflect all_algebra.
Set Implicit Arguments.
Unset Strict Implicit.
Unset Printing Implicit Defensive.
Import Order.TTheory GRing.Theory Num.Theory.
Local Open Scope ring_scope.

(** jax.lax.scan (used at solvers/kalman.py:111, solvers/rts.py:80,
    solvers/integrated/kalman.py, solvers/integrated/rts.py).
    Simplification: the output of each step is kept as one tuple, so a scan
    returns a list of tuples where JAX returns a tuple of stacked arrays. *)
Fixpoint lax_scan {C X Y : Type} (f : C -> X -> C * Y) (c : C) (xs : seq X)
  : C * seq Y :=
  match xs with
  | [::] => (c, [::])
  | x :: xs' =>
      let: (c1, y) := f c x in
      let: (c2, ys) := lax_scan f c1 xs' in
      (c2, y :: ys)
  end.

(** jnp.arange(N) *)
Definition arange (n : nat) : seq nat := iota 0 n.

(** jnp.arange(N - 2, -1, -1) (solvers/rts.py:80): N-2, ..., 1, 0; empty when
    N < 2. *)
Definition arange_down (n : nat) : seq nat := rev (iota 0 (n - 1)).

Section Field.
Variable F : realFieldType.

(** jnp.linalg.solve(a, b).  Simplification: on a singular [a] JAX returns
    inf/nan; here [invmx a] is [a] itself.  Theorems about code that calls
    [solve] prove separately that [a] is invertible. *)
Definition solve m n (a : 'M[F]_m) (b : 'M[F]_(m, n)) : 'M[F]_(m, n) :=
  invmx a *m b.

(** jnp.searchsorted(a, x, side="right") for a sorted array [a]: the number of
    entries that are <= x.  Simplification: on an unsorted array JAX's binary
    search may return something else; every theorem assumes sorted input. *)
Definition searchsorted_right (a : seq F) (x : F) : nat :=
  count (fun s => s <= x) a.

End Field.
