(** assign_unique_kernel_names: when it succeeds, and what it achieves. *)
From Coq Require Import Reals String.
From mathcomp Require Import all_ssreflect all_algebra.
From Verif.Prelude Require Import Rstruct.
From Verif.Spec Require Import WfKernel Data.
From Verif.Model Require Import Array BaseKernels IntegratedKernels Kernel Frontend.
From Verif.Proofs Require Import Names.
Set Implicit Arguments.
Unset Strict Implicit.
Unset Printing Implicit Defensive.
Import GRing.Theory.

Lemma streqP (a b : string) : reflect (a = b) (String.eqb a b).
Proof. exact: String.eqb_spec. Qed.

Lemma dget_dset A (d : dict A) n a m :
  dget (dset d n a) m = if String.eqb n m then Some a else dget d m.
Proof.
elim: d => [|[k v] d IH] //=.
case: (streqP k n) => [->|kn] /=; first by case: (streqP n m).
rewrite IH; case: (streqP k m) => // km; case: (streqP n m) => // nm.
by case: kn; rewrite km.
Qed.

Lemma dget_map1 (d : dict nat) n c : dget d n = Some c -> (1 < c)%N ->
  dget (name_used d) n = Some 1%N.
Proof.
rewrite /name_used; elim: d => [|[k v] d IH] //=.
case: (streqP k n) => [->|kn] h c1; first by case: h => ->; rewrite c1 /= String.eqb_refl.
case: ifP => _ /=; last exact: IH.
by case: (streqP k n) => // _; apply: IH.
Qed.

(** counts[n] is the number of times n occurs. *)
Definition occurs (n : string) (s : seq string) : nat := count (String.eqb n) s.

Lemma dget_foldl n s (d : dict nat) pre :
  dget d n = (if (0 < occurs n pre)%N then Some (occurs n pre) else None) ->
  dget (foldl (fun d n => dset d n (odflt 0%N (dget d n)).+1) d s) n
  = (if (0 < occurs n (pre ++ s))%N then Some (occurs n (pre ++ s)) else None).
Proof.
elim: s d pre => [|x s IH] d pre h /=; first by rewrite cats0.
rewrite -cat_rcons; apply: IH.
rewrite dget_dset /occurs -cats1 count_cat /= addn0.
case: (streqP x n) => [->|xn]; last first.
  by case: (streqP n x) => [e|_]; [case: xn | rewrite addn0].
by rewrite String.eqb_refl h /occurs; case: (count _ pre) => [|p] //=; rewrite addn1.
Qed.

Lemma dget_counts n s : dget (name_counts s) n = if (0 < occurs n s)%N then Some (occurs n s) else None.
Proof. exact: (@dget_foldl n s [::] [::]). Qed.

Lemma leaf_rename counts k used : ~ is_product k -> extract_leaf_kernels false k = [:: k] ->
  rename counts k used =
      match dget counts (kname k) with
      | None => inl KeyError
      | Some c =>
          if (1 < c)%N then
            match dget used (kname k) with
            | None => inl KeyError
            | Some idx =>
                inr (set_name (String.append (kname k) (String.append "_" (nat_string idx))) k,
                     dset used (kname k) idx.+1)
            end
          else inr (k, used)
      end.
Proof.
case: k => //=.
move=> k1 k2 _.
move=> e; exfalso; have := congr1 size e; rewrite size_cat /=.
have pos k : (0 < size (extract_leaf_kernels false k))%N.
  by elim: k => //= *; rewrite size_cat addn_gt0; apply/orP; left.
by move=> es; have := leq_add (pos k1) (pos k2); rewrite es.
Qed.

Lemma In_mem (T : Type) (P : T -> Prop) (s1 s2 : seq T) :
  (forall x, List.In x (s1 ++ s2) -> P x) <->
  (forall x, List.In x s1 -> P x) /\ (forall x, List.In x s2 -> P x).
Proof.
split=> [h|[h1 h2] x hx]; last by case: (List.in_app_or _ _ _ hx); [apply: h1 | apply: h2].
by split=> x hx; apply: h; apply: List.in_or_app; [left | right].
Qed.

Lemma summandsE k : summands k = extract_leaf_kernels false k.
Proof. by elim: k => //= k1 -> k2 ->. Qed.

Lemma leaf_ok counts k used : ~ is_product k -> extract_leaf_kernels false k = [:: k] ->
  (forall k', List.In k' [:: k] -> dget counts (kname k')) ->
  (forall n c, dget counts n = Some c -> (1 < c)%N -> dget used n) ->
  exists r, rename counts k used = inr r /\
    (forall n c, dget counts n = Some c -> (1 < c)%N -> dget r.2 n).
Proof.
move=> np lf hk hu; rewrite leaf_rename //.
have := hk k (or_introl erefl); case ec: (dget counts (kname k)) => [c|] // _.
case c1: (1 < c)%N; last by exists (k, used).
have := hu _ _ ec c1; case e: (dget used (kname k)) => [idx|] // _.
eexists; split; first reflexivity.
by move=> n' c' e' c1' /=; rewrite dget_dset; case: ifP => // _; apply: hu e' c1'.
Qed.

Lemma rename_ok counts k used :
  (forall k', List.In k' (summands k) -> ~ is_product k') ->
  (forall k', List.In k' (summands k) -> dget counts (kname k')) ->
  (forall n c, dget counts n = Some c -> (1 < c)%N -> dget used n) ->
  exists r, rename counts k used = inr r /\
    (forall n c, dget counts n = Some c -> (1 < c)%N -> dget r.2 n).
Proof.
elim: k used; try by (intros; apply: leaf_ok).
- move=> k1 IH1 k2 IH2 used /= /In_mem[h1 h2] /In_mem[g1 g2] hu.
  have [r1 [-> /= u1]] := IH1 used h1 g1 hu.
  by have [r2 [-> /= u2]] := IH2 r1.2 h2 g2 u1; exists (Sum r1.1 r2.1, r2.2).
- by move=> k1 _ k2 _ used /= h; case: (h (Product k1 k2)); [left|].
Qed.

Lemma occurs_In n s : List.In n s -> (0 < occurs n s)%N.
Proof.
by elim: s => //= x s IH [->|/IH h]; rewrite ?String.eqb_refl // addn_gt0 h orbT.
Qed.

Lemma distinct_uniq s : distinct s -> string_uniq s.
Proof.
elim: s => //= x s IH [h1 h2]; rewrite IH // andbT.
apply/negP; elim: s h1 {IH h2} => //= z s IH h /orP[/streqP e|h'].
  by apply: h; left.
by apply: IH h' => h''; apply: h; right.
Qed.

Lemma unique_no_product k : (forall k', List.In k' (summands k) -> ~ is_product k') ->
  exists k', assign_unique_kernel_names k = inr k'.
Proof.
move=> h; rewrite /assign_unique_kernel_names; case: ifP => _; first by exists k.
set counts := name_counts _.
have [|n c|r [-> _]] := @rename_ok counts k (name_used counts) h; last by exists r.1.
  move=> k' hk'; rewrite /counts dget_counts occurs_In //.
  by rewrite -summandsE; apply: List.in_map.
by move=> e c1; rewrite (dget_map1 e c1).
Qed.

Lemma no_product_erase k : (forall k', List.In k' (summands (erase k)) -> ~ is_product k') <->
  (forall k', List.In k' (summands k) -> ~ is_product k').
Proof.
elim: k; try by (intros; split=> h k' /= [] // <-).
- by move=> k1 IH1 k2 IH2 /=; rewrite !In_mem IH1 IH2.
- move=> k1 _ k2 _; split=> h; exfalso.
    by apply: (h (Product (erase k1) (erase k2))); first by left.
  by apply: (h (Product k1 k2)); first by left.
Qed.

Lemma unique_names_ok k : names_ok k ->
  exists k', assign_unique_kernel_names k = inr k' /\
    exists k'', assign_unique_kernel_names k' = inr k''.
Proof.
case=> [/distinct_uniq|h].
  rewrite summandsE => /unique_distinct e; exists k; split=> //.
  by exists k.
have [k' e] := unique_no_product h; exists k'; split=> //.
apply: unique_no_product; apply/no_product_erase; rewrite (unique_erase e).
exact/no_product_erase.
Qed.
