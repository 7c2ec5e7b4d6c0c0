(** The elements of the filtering scan: composition is associative on elements with
    positive semidefinite C and J, because an element is the linear relation
    (Redheffer's scattering form)
       x' = A x + C l' + b,   l = A^T l' - J x + eta
    and combining elements composes the relations. *)
From mathcomp Require Import all_ssreflect all_algebra.
From Verif.Prelude Require Import Psd Zmod.
From Verif.Model Require Import Jax Ssm Sequential Parallel.
From Verif.Proofs Require Import KalmanPd SeqExact.
Set Implicit Arguments.
Unset Strict Implicit.
Unset Printing Implicit Defensive.
Import Order.TTheory GRing.Theory Num.Theory.
Local Open Scope ring_scope.

Section Elem.
Variables (F : realFieldType) (d : nat).
Notation elem := (@felem F d).
Notation cv := 'cV[F]_d.

Definition okf (e : elem) : Prop := psdmx (fC e) /\ psdmx (fJ e).

Definition frel (e : elem) (x l x' l' : cv) : Prop :=
  x' = fA e *m x + fC e *m l' + fb e /\ l = (fA e)^T *m l' - fJ e *m x + feta e.

Lemma symmetrise_sym (X : 'M[F]_d) : X^T = X -> symmetrise X = X.
Proof.
move=> s; rewrite /symmetrise s -mulr2n -scaler_nat scalerA mulVf ?scale1r //.
by rewrite pnatr_eq0.
Qed.

Lemma trD1 (C J : 'M[F]_d) : psdmx C -> psdmx J -> (1%:M + C *m J)^T = 1%:M + J *m C.
Proof. by move=> [sC _] [sJ _]; rewrite linearD /= trmx1 trmx_mul sC sJ. Qed.

Section Two.
Variables a b : elem.
Hypotheses (oa : okf a) (ob : okf b).
Let D := 1%:M + fC a *m fJ b.
Let E := 1%:M + fJ b *m fC a.

Lemma unitD : D \in unitmx. Proof. by apply: unit_1CJ; [exact: oa.1 | exact: ob.2]. Qed.
Lemma unitE : E \in unitmx. Proof. by apply: unit_1CJ; [exact: ob.2 | exact: oa.1]. Qed.
Lemma DT : D^T = E. Proof. by apply: trD1; [exact: oa.1 | exact: ob.2]. Qed.
Lemma psdC : psdmx (fA b *m solve D (fC a) *m (fA b)^T + fC b).
Proof.
apply: psdD; last exact: ob.1.
by apply: psd_conj; apply: psd_1CJC; [exact: oa.1 | exact: ob.2].
Qed.
Lemma psdJ : psdmx ((fA a)^T *m solve E (fJ b) *m fA a + fJ a).
Proof.
apply: psdD; last exact: oa.2.
by apply: psd_conjt; apply: psd_1CJC; [exact: ob.2 | exact: oa.1].
Qed.

Lemma combineE : filter_combine a b =
  {| fA := fA b *m solve D (fA a);
     fb := fA b *m solve D (fb a + fC a *m feta b) + fb b;
     fC := fA b *m solve D (fC a) *m (fA b)^T + fC b;
     feta := (fA a)^T *m solve E (feta b - fJ b *m fb a) + feta a;
     fJ := (fA a)^T *m solve E (fJ b) *m fA a + fJ a |}.
Proof.
have [h1 _] := psdC; have [h2 _] := psdJ.
rewrite -[in RHS](symmetrise_sym h1) -[in RHS](symmetrise_sym h2).
by rewrite /D /E; case: (a) (b) => Aa ba Ca ea Ja [Ab bb Cb eb Jb].
Qed.

Lemma ok_combine : okf (filter_combine a b).
Proof. by rewrite combineE; split; [exact: psdC | exact: psdJ]. Qed.


Lemma frel_compose x l x1 l1 x2 l2 : frel a x l x1 l1 -> frel b x1 l1 x2 l2 ->
  frel (filter_combine a b) x l x2 l2.
Proof.
have uD := unitD; have uE := unitE.
have AT : (fA b *m solve D (fA a))^T = (fA a)^T *m solve E ((fA b)^T).
  by rewrite /solve !trmx_mul trmx_inv DT !mulmxA.
case=> e1 e2 [e3 e4].
have h1 : x1 = solve D (fA a *m x + fC a *m ((fA b)^T *m l2 + feta b) + fb a).
  rewrite /solve; apply: (canRL (mulKmx uD)); rewrite mulmxDl mul1mx {1}e1 e4; mxzmod.
have h2 : l1 = solve E ((fA b)^T *m l2 - fJ b *m (fA a *m x + fb a) + feta b).
  rewrite /solve; apply: (canRL (mulKmx uE)); rewrite mulmxDl mul1mx {1}e4 e1; mxzmod.
rewrite combineE; split=> /=.
  by rewrite e3 h1 /solve; mxzmod.
by rewrite AT e2 h2 /solve; mxzmod.
Qed.

Lemma frel_combine x l x2 l2 : frel (filter_combine a b) x l x2 l2 <->
  exists x1 l1, frel a x l x1 l1 /\ frel b x1 l1 x2 l2.
Proof.
split; last by case=> x1 [l1 [h1 h2]]; apply: frel_compose h1 h2.
move=> h.
set x1 := solve D (fA a *m x + fC a *m ((fA b)^T *m l2 + feta b) + fb a).
set l1 := (fA b)^T *m l2 - fJ b *m x1 + feta b.
have e1 : x1 = fA a *m x + fC a *m l1 + fb a.
  have : D *m x1 = fA a *m x + fC a *m ((fA b)^T *m l2 + feta b) + fb a.
    by rewrite /x1 /solve mulKVmx // unitD.
  rewrite {1}/D mulmxDl mul1mx => e.
  rewrite -[LHS](addrK (fC a *m fJ b *m x1)) e /l1; mxzmod.
pose l' := (fA a)^T *m l1 - fJ a *m x + feta a.
pose x2' := fA b *m x1 + fC b *m l2 + fb b.
have r1 : frel a x l' x1 l1 by [].
have r2 : frel b x1 l1 x2' l2 by [].
have [q1 q2] := frel_compose r1 r2.
have [q3 q4] := h.
exists x1, l1; rewrite q3 -q1 q4 -q2; by split.
Qed.
End Two.

Lemma mx_ext (M N : 'M[F]_d) : (forall x : cv, M *m x = N *m x) -> M = N.
Proof.
move=> h; apply/matrixP => i j.
by have /matrixP/(_ i 0) := h (delta_mx j 0); rewrite -!colE !mxE.
Qed.

Lemma frel_inj a b : (forall x l x' l', frel a x l x' l' <-> frel b x l x' l') -> a = b.
Proof.
move=> h.
have out x l' : fA a *m x + fC a *m l' + fb a = fA b *m x + fC b *m l' + fb b /\
    (fA a)^T *m l' - fJ a *m x + feta a = (fA b)^T *m l' - fJ b *m x + feta b.
  have [h1 _] := h x ((fA a)^T *m l' - fJ a *m x + feta a) (fA a *m x + fC a *m l' + fb a) l'.
  by have [] := h1 (conj erefl erefl).
have [] := out 0 0; rewrite !mulmx0 oppr0 !add0r => eb ee.
have eA : fA a = fA b.
  apply: mx_ext => x; have [] := out x 0; rewrite !mulmx0 !addr0 eb => e _; exact: addIr e.
have eC : fC a = fC b.
  apply: mx_ext => x; have [] := out 0 x; rewrite !mulmx0 !add0r eb => e _; exact: addIr e.
have eJ : fJ a = fJ b.
  apply: mx_ext => x; have [_] := out x 0; rewrite !mulmx0 !add0r ee => /addIr/oppr_inj; exact.
by case: a b eA eb eC ee eJ {h out} => ?????[?????] /= -> -> -> -> ->.
Qed.

Lemma filter_combine_assoc a b c : okf a -> okf b -> okf c ->
  filter_combine a (filter_combine b c) = filter_combine (filter_combine a b) c.
Proof.
move=> oa ob oc; apply: frel_inj => x l x' l'.
have obc := ok_combine ob oc; have oab := ok_combine oa ob.
rewrite !frel_combine //; split.
  case=> x1 [l1 [h1 /frel_combine]] => /(_ ob oc) [x2 [l2 [h2 h3]]].
  by exists x2, l2; split=> //; apply/frel_combine => //; exists x1, l1.
case=> x2 [l2 [/frel_combine]] => /(_ oa ob) [x1 [l1 [h1 h2]]] h3.
by exists x1, l1; split=> //; apply/frel_combine => //; exists x2, l2.
Qed.
End Elem.
