(** Derivatives of matrix-valued functions of one real variable.
    Nothing here refers to /repo. *)
From Coq Require Import Reals Lra.
From mathcomp Require Import all_ssreflect all_algebra.
From Coquelicot Require Import Coquelicot.
From Verif.Prelude Require Import Rstruct Zmod.
Set Implicit Arguments.
Unset Strict Implicit.
Unset Printing Implicit Defensive.
Import GRing.Theory.
Local Open Scope ring_scope.

(** Derivative of a real function of a real variable. *)
Definition der (f : R -> R) (x l : R) : Prop := is_derive f x l.

Lemma der_ext f g x l : f =1 g -> der f x l -> der g x l.
Proof. by move=> e; apply: is_derive_ext. Qed.
Lemma der_const c x : der (fun=> c) x 0.
Proof. exact: is_derive_const. Qed.
Lemma der_add f g x a b : der f x a -> der g x b -> der (fun s => f s + g s) x (a + b).
Proof. exact: is_derive_plus. Qed.
Lemma der_opp f x a : der f x a -> der (fun s => - f s) x (- a).
Proof. exact: is_derive_opp. Qed.
Lemma der_mul f g x a b : der f x a -> der g x b ->
  der (fun s => f s * g s) x (a * g x + f x * b).
Proof.
by move=> hf hg; apply: is_derive_mult => // n m; apply: Rmult_comm.
Qed.
Lemma der_eq f x a b : der f x a -> a = b -> der f x b.
Proof. by move=> h <-. Qed.

Lemma der_sum I (r : seq I) (f : I -> R -> R) (l : I -> R) x :
  (forall i, der (f i) x (l i)) ->
  der (fun s => \sum_(i <- r) f i s) x (\sum_(i <- r) l i).
Proof.
move=> h; elim: r => [|i r IH].
  apply: (der_ext (f := fun=> 0)) => [s|]; first by rewrite big_nil.
  by rewrite big_nil; apply: der_const.
apply: (der_ext (f := fun s => f i s + \sum_(j <- r) f j s)) => [s|].
  by rewrite big_cons.
by rewrite big_cons; apply: der_add.
Qed.

Lemma der_comp_shift f x c l : der f (x + c) l -> der (fun s => f (s + c)) x l.
Proof.
move=> h; rewrite /der -[l](Rmult_1_l l).
refine (is_derive_comp f (fun s => Rplus s c) x l 1%R h _).
have := is_derive_plus (fun s : R => s) (fun=> c) x _ _ (is_derive_id x)
   (is_derive_const c x).
by rewrite plus_zero_r.
Qed.

Lemma der_comp_lin f x c l : der f (c * x) l -> der (fun s => f (c * s)) x (c * l).
Proof.
move=> h; refine (is_derive_comp f (fun s => Rmult c s) x l c h _).
have := is_derive_scal (fun s : R => s) x c one (is_derive_id x).
by rewrite /one /= /scal /= /mult /= Rmult_1_r.
Qed.

(** A function with zero derivative is constant. *)
Lemma der0_const f : (forall x, der f x 0) -> forall a b, f a = f b.
Proof.
move=> h a b.
have H1 x : Rlt (Rmin a b) x /\ Rlt x (Rmax a b) -> is_derive f x 0 by move=> _; apply: h.
have H2 x : Rle (Rmin a b) x /\ Rle x (Rmax a b) -> continuity_pt f x.
  by move=> _; apply/continuity_pt_filterlim/ex_derive_continuous; exists 0; apply: h.
have [c [_ hc]] := MVT_gen f a b (fun=> R0) H1 H2.
by lra.
Qed.

(** A function with non-negative derivative to the right of 0 does not decrease. *)
Lemma der_ge0_le f g a : (forall x, der f x (g x)) ->
  (forall x, Rle R0 x -> Rle R0 (g x)) -> Rle R0 a -> Rle (f R0) (f a).
Proof.
move=> h hg ha.
have H1 x : Rlt (Rmin R0 a) x /\ Rlt x (Rmax R0 a) -> is_derive f x (g x) by move=> _; apply: h.
have H2 x : Rle (Rmin R0 a) x /\ Rle x (Rmax R0 a) -> continuity_pt f x.
  by move=> _; apply/continuity_pt_filterlim/ex_derive_continuous; exists (g x); apply: h.
have [c [hc e]] := MVT_gen f R0 a g H1 H2.
rewrite Rmin_left // Rmax_right // in hc.
have h0 : Rle R0 (Rmult (g c) (Rminus a R0)).
  by apply: Rmult_le_pos; [apply: hg; lra | lra].
lra.
Qed.

Section Mxd.
Variables m n : nat.

Definition mxd (A : R -> 'M[R]_(m, n)) (x : R) (D : 'M[R]_(m, n)) : Prop :=
  forall i j, der (fun s => A s i j) x (D i j).

Lemma mxd_ext A B x D : A =1 B -> mxd A x D -> mxd B x D.
Proof. by move=> e h i j; apply: der_ext (h i j) => s; rewrite e. Qed.

Lemma mxd_eq A x D E : mxd A x D -> D = E -> mxd A x E.
Proof. by move=> h <-. Qed.

Lemma mxd_const C x : mxd (fun=> C) x 0.
Proof. by move=> i j; rewrite mxE; apply: der_const. Qed.

Lemma mxd_add A B x D E : mxd A x D -> mxd B x E -> mxd (fun s => A s + B s) x (D + E).
Proof.
move=> hA hB i j; rewrite mxE; apply: der_ext (der_add (hA i j) (hB i j)) => s.
by rewrite mxE.
Qed.

Lemma mxd_opp A x D : mxd A x D -> mxd (fun s => - A s) x (- D).
Proof.
move=> hA i j; rewrite mxE; apply: der_ext (der_opp (hA i j)) => s.
by rewrite mxE.
Qed.

Lemma mxd_sub A B x D E : mxd A x D -> mxd B x E -> mxd (fun s => A s - B s) x (D - E).
Proof. by move=> hA hB; apply: mxd_add => //; apply: mxd_opp. Qed.

Lemma mxd_scale (f : R -> R) A x a D : der f x a -> mxd A x D ->
  mxd (fun s => f s *: A s) x (a *: A x + f x *: D).
Proof.
move=> hf hA i j; rewrite !mxE; apply: der_ext (der_mul hf (hA i j)) => s.
by rewrite mxE.
Qed.

Lemma mxd0_const A : (forall x, mxd A x 0) -> forall a b, A a = A b.
Proof.
move=> h a b; apply/matrixP=> i j; apply: (der0_const (f := fun s => A s i j)) => x.
by have := h x i j; rewrite mxE.
Qed.

Lemma mxd_shift A x c D : mxd A (x + c) D -> mxd (fun s => A (s + c)) x D.
Proof. by move=> h i j; apply: (der_comp_shift (f := fun s => A s i j)). Qed.

Lemma mxd_lin A x c D : mxd A (c * x) D -> mxd (fun s => A (c * s)) x (c *: D).
Proof.
by move=> h i j; rewrite mxE; apply: (der_comp_lin (f := fun s => A s i j)).
Qed.

Lemma mxd_neg A x D : mxd A (Ropp x) D -> mxd (fun s => A (Ropp s)) x (- D).
Proof.
have e s : Rmult (Ropp R1) s = Ropp s by ring.
move=> h; apply: (mxd_eq (D := (Ropp R1) *: D)); last exact: scaleN1r.
apply: (mxd_ext (A := fun s => A (Rmult (Ropp R1) s))) => [s|].
  by rewrite e.
by apply: mxd_lin; rewrite e.
Qed.

End Mxd.

Lemma mxd_mul m n p (A : R -> 'M[R]_(m, n)) (B : R -> 'M[R]_(n, p)) x D E :
  mxd A x D -> mxd B x E -> mxd (fun s => A s *m B s) x (D *m B x + A x *m E).
Proof.
move=> hA hB i j; rewrite !mxE -big_split /=.
apply: (der_ext (f := fun s => \sum_k A s i k * B s k j)) => [s|].
  by rewrite mxE.
by apply: der_sum => k; apply: der_mul.
Qed.

Lemma mxd_mull m n p (A : 'M[R]_(m, n)) (B : R -> 'M[R]_(n, p)) x E :
  mxd B x E -> mxd (fun s => A *m B s) x (A *m E).
Proof.
move=> hB; apply: mxd_eq (mxd_mul (mxd_const A x) hB) _.
by rewrite mul0mx add0r.
Qed.

Lemma mxd_mulr m n p (A : R -> 'M[R]_(m, n)) (B : 'M[R]_(n, p)) x D :
  mxd A x D -> mxd (fun s => A s *m B) x (D *m B).
Proof.
move=> hA; apply: mxd_eq (mxd_mul hA (mxd_const B x)) _.
by rewrite mulmx0 addr0.
Qed.

Lemma mxd_tr m n (A : R -> 'M[R]_(m, n)) x D : mxd A x D -> mxd (fun s => (A s)^T) x D^T.
Proof.
move=> h i j; rewrite mxE; apply: der_ext (h j i) => s.
by rewrite mxE.
Qed.

Lemma mxd_block m1 m2 n1 n2 (A : R -> 'M[R]_(m1, n1)) (B : R -> 'M[R]_(m1, n2))
   (C : R -> 'M[R]_(m2, n1)) (D : R -> 'M[R]_(m2, n2)) x A' B' C' D' :
  mxd A x A' -> mxd B x B' -> mxd C x C' -> mxd D x D' ->
  mxd (fun s => block_mx (A s) (B s) (C s) (D s)) x (block_mx A' B' C' D').
Proof.
move=> hA hB hC hD i j.
case: (split_ordP i) => i' ->; case: (split_ordP j) => j' ->;
  rewrite ?(block_mxEul, block_mxEur, block_mxEdl, block_mxEdr).
- by apply: der_ext (hA i' j') => s; rewrite block_mxEul.
- by apply: der_ext (hB i' j') => s; rewrite block_mxEur.
- by apply: der_ext (hC i' j') => s; rewrite block_mxEdl.
- by apply: der_ext (hD i' j') => s; rewrite block_mxEdr.
Qed.
