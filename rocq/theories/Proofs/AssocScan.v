(** jax.lax.associative_scan computes the running products of an associative
    operation; associativity is only needed on a set closed under the operation. *)
From mathcomp Require Import all_ssreflect.
From Verif.Model Require Import Parallel.
Set Implicit Arguments.
Unset Strict Implicit.
Unset Printing Implicit Defensive.

Section Scan.
Variables (T : Type) (op : T -> T -> T) (ok : T -> Prop).
Hypothesis okop : forall a b, ok a -> ok b -> ok (op a b).
Hypothesis assoc : forall a b c, ok a -> ok b -> ok c -> op a (op b c) = op (op a b) c.

Definition prefixes (xs : seq T) : seq T := if xs is x :: s then x :: scanl op x s else [::].
Fixpoint all_ok (xs : seq T) : Prop := if xs is x :: s then ok x /\ all_ok s else True.

Lemma pair_ind (P : seq T -> Prop) : P [::] -> (forall a, P [:: a]) ->
  (forall a b s, P s -> P (a :: b :: s)) -> forall s, P s.
Proof.
move=> h0 h1 h2 s; suff [] : P s /\ forall a, P (a :: s) by [].
by elim: s => [|b s [IH1 IH2]]; split=> // a; apply: h2.
Qed.

Lemma combine_pairs_ok xs : all_ok xs -> all_ok (combine_pairs op xs).
Proof.
elim/pair_ind: xs => //= a b s IH [oa [ob os]]; split; last exact: IH.
exact: okop.
Qed.

Lemma size_combine_pairs xs : (size (combine_pairs op xs) = (size xs)./2)%N.
Proof. by elim/pair_ind: xs => //= a b s ->. Qed.

Lemma merge_scans c s : ok c -> all_ok s ->
  interleave (zip_with op (c :: scanl op c (combine_pairs op s)) (evens s))
             (scanl op c (combine_pairs op s)) = scanl op c s.
Proof.
elim/pair_ind: s c => [|a|a b s IH] c oc //=.
move=> [oa [ob os]]; rewrite -assoc //; congr (_ :: _ :: _).
apply: IH => //; apply: okop => //; exact: okop.
Qed.

Lemma assoc_scan_recE fuel xs : (size xs <= fuel)%N -> all_ok xs ->
  assoc_scan_rec op fuel xs = prefixes xs.
Proof.
elim: fuel xs => [|fuel IH] [|x0 [|x1 s]] //= sz [o0 [o1 os]].
rewrite IH /=; last first.
- by split; [exact: okop | exact: combine_pairs_ok].
- rewrite size_combine_pairs -divn2; apply: leq_ltn_trans (leq_div _ _) _; exact: sz.
by congr (_ :: _ :: _); apply: merge_scans => //; exact: okop.
Qed.

Lemma associative_scanE xs : all_ok xs -> associative_scan op xs = prefixes xs.
Proof. exact: assoc_scan_recE. Qed.

End Scan.

(** The same with [reverse=True]: products from the end. *)
Section Reverse.
Variables (T : Type) (op : T -> T -> T).
Hypothesis assoc : associative op.

Lemma all_okT xs : all_ok (fun _ : T => True) xs.
Proof. by elim: xs. Qed.

Lemma associative_scan_reverseE xs :
  associative_scan_reverse op xs = rev (prefixes op (rev xs)).
Proof.
rewrite /associative_scan_reverse (@associative_scanE _ op (fun _ => True)) //; exact: all_okT.
Qed.
End Reverse.

Section Prefix.
Variables (T : Type) (op : T -> T -> T).
Lemma size_prefixes xs : size (prefixes op xs) = size xs.
Proof. by case: xs => //= x s; rewrite size_scanl. Qed.
Lemma nth_prefixes0 x0 x s : nth x0 (prefixes op (x :: s)) 0 = x. Proof. by []. Qed.
Lemma nth_prefixesS x0 xs i : (i.+1 < size xs)%N ->
  nth x0 (prefixes op xs) i.+1 = op (nth x0 (prefixes op xs) i) (nth x0 xs i.+1).
Proof.
case: xs => //= x s; rewrite ltnS => hi.
elim: s x i hi => //= a s IH x [|i] //= hi; exact: IH.
Qed.
End Prefix.
