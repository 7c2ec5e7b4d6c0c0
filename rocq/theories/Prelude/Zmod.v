(** A small reflexive tactic [zmod] deciding equations in abelian groups, and
    [mxzmod], which first distributes matrix products over sums.
    Proof automation only; nothing here refers to /repo. *)
From mathcomp Require Import all_ssreflect all_algebra.
Set Implicit Arguments.
Unset Strict Implicit.
Unset Printing Implicit Defensive.
Import GRing.Theory.
Local Open Scope ring_scope.

Inductive zexp := ZAt of nat | ZNul | ZAdd of zexp & zexp | ZOpp of zexp.

Section Zexp.
Variable V : zmodType.

Fixpoint zeval (env : seq V) (e : zexp) : V :=
  match e with
  | ZAt n => nth 0 env n
  | ZNul => 0
  | ZAdd a b => zeval env a + zeval env b
  | ZOpp a => - zeval env a
  end.

(** Positive and negative coefficients of atom [i]. *)
Fixpoint zcoef (i : nat) (e : zexp) : nat * nat :=
  match e with
  | ZAt n => (nat_of_bool (eqn i n), 0%N)
  | ZNul => (0%N, 0%N)
  | ZAdd a b => ((zcoef i a).1 + (zcoef i b).1, (zcoef i a).2 + (zcoef i b).2)%N
  | ZOpp a => ((zcoef i a).2, (zcoef i a).1)
  end.

Lemma zevalE env e : zeval env e =
  \sum_(i < size env) (env`_i *+ (zcoef i e).1 - env`_i *+ (zcoef i e).2).
Proof.
elim: e => [n||a IHa b IHb|a IHa] /=.
- case: (ltnP n (size env)) => hn; last first.
    rewrite nth_default // big1 // => i _; rewrite subr0 eqnE.
    by rewrite ltn_eqF ?mulr0n // (leq_trans (ltn_ord i)).
  rewrite (bigD1 (Ordinal hn)) //= eqnE eqxx subr0 big1 ?addr0 // => i ne.
  by rewrite (_ : (val i == n) = false) ?mulr0n ?subr0 //; apply: negbTE.
- by rewrite big1 // => i _; rewrite subr0.
- rewrite IHa IHb -big_split; apply: eq_bigr => i _ /=.
  by rewrite !mulrnDr opprD (AC (2*2) ((1*3)*(2*4))) .
- by rewrite IHa -sumrN; apply: eq_bigr => i _; rewrite opprB.
Qed.

Definition zcheck n (a b : zexp) : bool :=
  all (fun i => eqn ((zcoef i a).1 + (zcoef i b).2) ((zcoef i b).1 + (zcoef i a).2))
      (iota 0 n).

Lemma zcheckP env a b : zcheck (size env) a b -> zeval env a = zeval env b.
Proof.
move=> /allP h; rewrite !zevalE; apply: eq_bigr => i _.
have /h : val i \in iota 0 (size env) by rewrite mem_iota ltn_ord.
rewrite eqnE => /eqP e; apply/eqP; rewrite subr_eq addrAC -mulrnDr.
by rewrite eq_sym subr_eq -mulrnDr e.
Qed.
End Zexp.

(** Atoms are compared up to conversion, without unfolding matrix operations
    (they may differ in canonical-structure paths only). *)
Ltac zsame x z :=
  match constr:(Set) with
  | _ => let _ := match constr:(Set) with _ => constr_eq x z end in constr:(true)
  | _ => let _ := match constr:(Set) with
           | _ => with_strategy opaque [mulmx trmx invmx scalar_mx GRing.scale] (unify x z) end in constr:(true)
  | _ => constr:(false)
  end.
Ltac zmem x l :=
  match l with
  | nil => constr:(false)
  | cons ?z ?l' => match zsame x z with
                   | true => constr:(true)
                   | false => zmem x l'
                   end
  end.
Ltac zadd x l :=
  match zmem x l with
  | true => constr:(l)
  | false => constr:(cons x l)
  end.
Ltac zidx x l :=
  match l with
  | cons ?z ?l' => match zsame x z with
                   | true => constr:(O)
                   | false => let n := zidx x l' in constr:(S n)
                   end
  end.
Ltac zatoms l t :=
  match t with
  | @GRing.add _ ?a ?b => let l := zatoms l a in zatoms l b
  | @GRing.opp _ ?a => zatoms l a
  | @GRing.zero _ => constr:(l)
  | _ => zadd t l
  end.
Ltac zreify l t :=
  match t with
  | @GRing.add _ ?a ?b =>
      let a := zreify l a in let b := zreify l b in constr:(ZAdd a b)
  | @GRing.opp _ ?a => let a := zreify l a in constr:(ZOpp a)
  | @GRing.zero _ => constr:(ZNul)
  | _ => let n := zidx t l in constr:(ZAt n)
  end.
Ltac zmod :=
  match goal with
  | |- @eq ?T ?lhs_ ?rhs_ =>
    let V := constr:([zmodType of T]) in
    let l0 := constr:(@nil T) in
    let l := zatoms l0 lhs_ in let l := zatoms l rhs_ in
    let a := zreify l lhs_ in let b := zreify l rhs_ in
    exact (@zcheckP V l a b isT)
  end.

Ltac mxdist :=
  rewrite ?(mulmxDl, mulmxDr, mulmxBl, mulmxBr, mulmxN, mulNmx, mul1mx, mulmx1, mul0mx, mulmx0, mulmxA).
(** Distribute until nothing changes, then compare. *)
Ltac mxzmod := repeat (progress mxdist); zmod.

Section Test.
Variables (V : zmodType) (x p q r u t : V).
Goal x + p + (q + r) + (u - t) = x + u + (q + p + (r - t)) - 0.
Proof. zmod. Qed.
Variables (R : ringType) (A B : 'M[R]_3) (C : 'M[R]_(3,1)) .
Goal (A + B) *m (A - B) *m C = A *m A *m C - A *m (B *m C) + B *m (A *m C) - B *m B *m C.
Proof. mxzmod. Qed.
End Test.
