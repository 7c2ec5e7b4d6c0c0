(** assign_unique_kernel_names makes the names of the summands distinct. *)
From Coq Require Import Reals String DecimalString DecimalFacts DecimalNat Ascii.
From mathcomp Require Import all_ssreflect all_algebra.
From Verif.Prelude Require Import Rstruct.
From Verif.Spec Require Import WfKernel Data Components.
From Verif.Model Require Import Array BaseKernels IntegratedKernels Kernel Frontend.
From Verif.Proofs Require Import Names Rename.
Set Implicit Arguments.
Unset Strict Implicit.
Unset Printing Implicit Defensive.
Import GRing.Theory.

(** ** Strings *)
Fixpoint no_underscore (s : string) : bool :=
  match s with EmptyString => true | String c s => ~~ Ascii.eqb c "_"%char && no_underscore s end.

Lemma nat_string_clean n : no_underscore (nat_string n).
Proof.
rewrite /nat_string; move: (Nat.to_uint n) => d.
have h d' : no_underscore (NilEmpty.string_of_uint d') by elim: d' => //=.
by case: d => //= d'; apply: h.
Qed.

Lemma nat_string_inj i j : nat_string i = nat_string j -> i = j.
Proof.
have nz n : Nat.to_uint n <> Decimal.Nil.
  rewrite -[n]DecimalNat.Unsigned.of_to DecimalNat.Unsigned.to_of.
  exact: unorm_nonnil.
move=> e; apply: DecimalNat.Unsigned.to_uint_inj.
have := congr1 NilZero.uint_of_string e.
by rewrite /nat_string !NilZero.usu // => -[].
Qed.

Lemma clean_underscore a s : no_underscore (a ++ "_" ++ s)%string = false.
Proof. by elim: a => //= c a ->; rewrite andbF. Qed.

Lemma underscore_inj a b s t : no_underscore s -> no_underscore t ->
  (a ++ "_" ++ s = b ++ "_" ++ t)%string -> a = b /\ s = t.
Proof.
move=> hs ht; elim: a b => [|c a IH] [|c' b] //=.
- by case.
- case=> _ e; move: hs; rewrite e.
  by rewrite (clean_underscore b t).
- case=> _ e; move: ht; rewrite -e.
  by rewrite (clean_underscore a s).
by case=> -> /IH[-> ->].
Qed.

Lemma numbered_inj a b i j : numbered a i = numbered b j -> a = b /\ i = j.
Proof.
by move=> /underscore_inj[] //; try exact: nat_string_clean; move=> -> /nat_string_inj ->.
Qed.

(** ** Repeated names *)
Lemma repeatedP n s : reflect (repeated n s) (1 < occurs n s)%N.
Proof.
apply: (iffP idP) => [|[s1 [s2 [s3 ->]]]]; last first.
  rewrite /occurs count_cat /= count_cat /= String.eqb_refl.
  by rewrite addnC !addnA [(_ + true)%N]addnC !addnA.
have in_split s' : (0 < occurs n s')%N -> exists a b, s' = a ++ n :: b.
  elim: s' => //= x s' IH; case: (streqP n x) => [<- _|_ /= /IH[a [b ->]]].
    by exists [::], s'.
  by exists (x :: a), b.
elim: s => //= x s IH; case: (streqP n x) => [<- |_] /=.
  by rewrite add1n ltnS => /in_split[a [b ->]]; exists [::], a, b.
by rewrite add0n => /IH[a [b [c ->]]]; exists (x :: a), b, c.
Qed.

(** ** The new names *)
Section New.
Variable full : seq string.

Definition new_name (pre : seq string) (x : string) : string :=
  if (1 < occurs x full)%N then numbered x (occurs x pre).+1 else x.
Fixpoint new_names (pre s : seq string) : seq string :=
  if s is x :: s' then new_name pre x :: new_names (rcons pre x) s' else [::].

Lemma new_names_cat pre s1 s2 :
  new_names pre (s1 ++ s2) = new_names pre s1 ++ new_names (pre ++ s1) s2.
Proof.
by elim: s1 pre => [|x s1 IH] pre /=; rewrite ?cats0 // IH cat_rcons.
Qed.

Lemma new_names_In pre s n : List.In n (new_names pre s) ->
  exists s1 x s2, s = s1 ++ x :: s2 /\ n = new_name (pre ++ s1) x.
Proof.
elim: s pre => //= x s IH pre [<-|/IH[s1 [z [s2 [-> ->]]]]].
  by exists [::], x, s; rewrite cats0.
by exists (x :: s1), z, s2; rewrite cat_rcons.
Qed.

Hypothesis free : forall x, (1 < occurs x full)%N -> forall i, ~ List.In (numbered x i) full.

Lemma new_names_distinct pre s : full = pre ++ s -> distinct (new_names pre s).
Proof.
elim: s pre => //= x s IH pre ef; split; last by apply: IH; rewrite ef cat_rcons.
move=> /new_names_In[s1 [z [s2 [es]]]].
have inx : List.In x full by rewrite ef; apply: List.in_or_app; right; left.
have inz : List.In z full.
  by rewrite ef es; apply: List.in_or_app; right; right; apply: List.in_or_app; right; left.
rewrite /new_name; case: ifP => hx; case: ifP => hz.
- move=> /numbered_inj[e] /eqP; rewrite e eqSS /occurs cat_rcons !count_cat /= String.eqb_refl.
  by rewrite -{1}[count _ pre]addn0 eqn_add2l add1n.
- by move=> e; case: (free hx (i := (occurs x pre).+1)); rewrite e.
- by move=> e; case: (free hz (i := (occurs z (rcons pre x ++ s1)).+1)); rewrite -e.
- move=> e; move: hx; rewrite ef es e /occurs count_cat /= count_cat /= String.eqb_refl.
  by move=> /negbT; rewrite -leqNgt addnC !addnA [(_ + true)%N]addnC !addnA.
Qed.
End New.

(** ** Renaming *)
Section RenameNames.
Variable full : seq string.
Let counts := name_counts full.

(** used[n] after the names pre have been met *)
Definition used_ok (used : dict nat) (pre : seq string) : Prop :=
  forall n, (1 < occurs n full)%N -> dget used n = Some (occurs n pre).+1.

Definition can_rename (k : kernel) : Prop :=
  forall k', List.In k' (summands k) -> ~ is_product k' /\
    (List.In (kname k') full) /\ ((1 < occurs (kname k') full)%N -> renameable k').

Lemma kname_set s k : renameable k -> kname (set_name s k) = s /\ summands (set_name s k) = [:: set_name s k].
Proof. by case: k. Qed.

Lemma occurs_rcons n pre x : occurs n (rcons pre x) = (occurs n pre + String.eqb n x)%N.
Proof. by rewrite /occurs -cats1 count_cat /= addn0. Qed.

Lemma leaf_names k used pre r : ~ is_product k -> summands k = [:: k] -> can_rename k ->
  used_ok used pre -> rename counts k used = inr r ->
  map kname (summands r.1) = new_names full pre [:: kname k] /\ used_ok r.2 (rcons pre (kname k)).
Proof.
move=> np sk cr uo; rewrite leaf_rename -?summandsE // /counts dget_counts.
have [|_ [inf rn]] := cr k; first by rewrite sk; left.
rewrite occurs_In // /= /new_name; case: ifP => c1; last first.
  case=> <- /=; rewrite sk; split=> // n n1; rewrite uo // occurs_rcons.
  by case: (streqP n (kname k)) => [e|_]; [move: n1; rewrite e c1 | rewrite addn0].
rewrite uo // => -[<-] /=; have [e1 e2] := kname_set (numbered (kname k) (occurs (kname k) pre).+1) (rn c1).
rewrite -/(numbered _ _) e2 /= e1; split=> // n n1.
rewrite dget_dset occurs_rcons; case: (streqP (kname k) n) => [->|ne].
  by rewrite String.eqb_refl addn1.
by rewrite uo //; case: (streqP n (kname k)) => [e|_]; [case: ne | rewrite addn0].
Qed.

Lemma rename_names k used pre r : can_rename k -> used_ok used pre ->
  rename counts k used = inr r ->
  map kname (summands r.1) = new_names full pre (map kname (summands k)) /\
  used_ok r.2 (pre ++ map kname (summands k)).
Proof.
elim: k used pre r; 
  try by (intros; rewrite [in X in _ ++ X]/= cats1; eapply leaf_names; eauto).
- move=> k1 IH1 k2 IH2 used pre r; rewrite {1}/can_rename [summands _]/= In_mem => -[c1 c2] uo /=.
  case e1 : (rename counts k1 used) => [//|r1] /=.
  case e2 : (rename counts k2 r1.2) => [//|r2] /= [<-] /=.
  have [n1 u1] := IH1 _ _ _ c1 uo e1; have [n2 u2] := IH2 _ _ _ c2 u1 e2.
  by rewrite !map_cat new_names_cat catA -n1 -n2.
- by move=> k1 _ k2 _ used pre r c; case: (c (Product k1 k2)); [left | case].
Qed.
End RenameNames.

Lemma uniq_distinct s : string_uniq s -> distinct s.
Proof.
elim: s => //= x s IH /andP[/negP h /IH h2]; split=> // hi; apply: h.
by elim: s hi {IH h2} => //= z s IH [->|/IH ->]; rewrite ?String.eqb_refl ?orbT.
Qed.

Lemma unique_names_distinct k k' : names_free k \/ distinct (summand_names k) ->
  assign_unique_kernel_names k = inr k' -> distinct (summand_names k').
Proof.
move=> hk; rewrite /assign_unique_kernel_names -summandsE -/(summand_names k).
case: ifP => u; first by case=> <-; apply: uniq_distinct.
case: hk => [nf|/distinct_uniq]; last by rewrite u.
case e: rename => [//|r] [<-].
have [|n n1|en _] := @rename_names (summand_names k) k _ [::] r _ _ e; last rewrite /summand_names en.
- move=> k0 k0in; have [np rn] := nf _ k0in; split=> //; split; first exact: List.in_map.
  by move=> /repeatedP /rn[].
- rewrite (@dget_map1 _ n (occurs n (summand_names k))) //.
  by rewrite dget_counts (ltn_trans _ n1).
apply: new_names_distinct => // x x1 i.
have : (0 < occurs x (summand_names k))%N by apply: ltn_trans x1.
move=> xin; have [k0 [k0in ek]] : exists k0, List.In k0 (summands k) /\ kname k0 = x.
  move: xin; rewrite /summand_names; elim: (summands k) => //= a l IH.
  case: (streqP x (kname a)) => [->|_ /= /IH[k0 [h1 h2]]]; first by exists a; split=> //; left.
  by exists k0; split=> //; right.
have [_ rn] := nf _ k0in; rewrite -ek; apply: (rn _).2.
by apply/repeatedP; rewrite ek.
Qed.
