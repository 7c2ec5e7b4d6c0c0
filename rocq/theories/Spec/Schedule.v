(** Ways of bracketing a product of several elements. *)
From mathcomp Require Import all_ssreflect.
Set Implicit Arguments.
Unset Strict Implicit.
Unset Printing Implicit Defensive.

Inductive bracketing (T : Type) := One of T | Two of bracketing T & bracketing T.
Arguments One {T}. Arguments Two {T}.

(** The elements in order, and the value of the product. *)
Fixpoint elements {T} (b : bracketing T) : seq T :=
  match b with One x => [:: x] | Two l r => elements l ++ elements r end.
Fixpoint product {T} (op : T -> T -> T) (b : bracketing T) : T :=
  match b with One x => x | Two l r => op (product op l) (product op r) end.
