(** Coq's real numbers as a mathcomp [realFieldType].

    Uses the standard library's axioms for the reals and, for the choice
    structure, constructive_indefinite_description (Coq.Logic.ClassicalEpsilon).
    Nothing here refers to /repo. *)
From Coq Require Import Reals ClassicalEpsilon FunctionalExtensionality Lra.
From mathcomp Require Import all_ssreflect all_algebra.
Set Implicit Arguments.
Unset Strict Implicit.
Unset Printing Implicit Defensive.

Definition eqr (x y : R) : bool := if Req_EM_T x y is left _ then true else false.

Lemma eqrP : Equality.axiom eqr.
Proof. by move=> x y; rewrite /eqr; case: Req_EM_T => h; constructor. Qed.

Definition R_eqMixin := EqMixin eqrP.
Canonical R_eqType := Eval hnf in EqType R R_eqMixin.

Definition pickR (P : pred R) (n : nat) : option R :=
  if excluded_middle_informative (exists x, P x) is left h
  then Some (sval (constructive_indefinite_description _ h)) else None.

Lemma pickR_some P n x : pickR P n = Some x -> P x.
Proof.
rewrite /pickR; case: excluded_middle_informative => // h [<-].
exact: (svalP (constructive_indefinite_description _ h)).
Qed.

Lemma pickR_ex (P : pred R) : (exists x, P x) -> exists n, pickR P n.
Proof. by move=> h; exists 0; rewrite /pickR; case: excluded_middle_informative. Qed.

Lemma pickR_ext (P Q : pred R) : P =1 Q -> pickR P =1 pickR Q.
Proof. by move=> /functional_extensionality ->. Qed.

Definition R_choiceMixin : choiceMixin R := Choice.Mixin pickR_some pickR_ex pickR_ext.
Canonical R_choiceType := Eval hnf in ChoiceType R R_choiceMixin.

Lemma RplusA : associative Rplus. Proof. by move=> *; rewrite Rplus_assoc. Qed.
Definition R_zmodMixin := ZmodMixin RplusA Rplus_comm Rplus_0_l Rplus_opp_l.
Canonical R_zmodType := Eval hnf in ZmodType R R_zmodMixin.

Lemma RmultA : associative Rmult. Proof. by move=> *; rewrite Rmult_assoc. Qed.
Lemma R1_neq_0' : R1 != R0 :> R. Proof. by apply/eqP/R1_neq_R0. Qed.
Definition R_ringMixin := RingMixin RmultA Rmult_1_l Rmult_1_r
   Rmult_plus_distr_r Rmult_plus_distr_l R1_neq_0'.
Canonical R_ringType := Eval hnf in RingType R R_ringMixin.
Canonical R_comRingType := Eval hnf in ComRingType R Rmult_comm.

Import GRing.

Definition unit_R (r : R) : bool := r != 0%R.
Lemma RmultRinv : {in unit_R, left_inverse R1 Rinv Rmult}.
Proof. by move=> r /eqP h; apply: Rinv_l. Qed.
Lemma RinvRmult : {in unit_R, right_inverse R1 Rinv Rmult}.
Proof. by move=> r /eqP h; apply: Rinv_r. Qed.
Lemma intro_unit_R (x y : R) : Rmult y x = R1 /\ Rmult x y = R1 -> unit_R x.
Proof.
move=> [h _]; apply/eqP=> e; move: h; rewrite e Rmult_0_r => /esym.
exact: R1_neq_R0.
Qed.
Lemma Rinv_out : {in predC unit_R, Rinv =1 id}.
Proof. by move=> r; rewrite inE /= /unit_R => /negPn /eqP ->; apply: Rinv_0. Qed.
Definition R_unitRingMixin := UnitRingMixin RmultRinv RinvRmult intro_unit_R Rinv_out.
Canonical R_unitRingType := Eval hnf in UnitRingType R R_unitRingMixin.
Canonical R_comUnitRingType := Eval hnf in [comUnitRingType of R].
Lemma R_idomainMixin (x y : R) : Rmult x y = R0 -> (x == R0) || (y == R0).
Proof. by case/Rmult_integral=> ->; rewrite eqxx ?orbT. Qed.
Canonical R_idomainType := Eval hnf in IdomainType R R_idomainMixin.
Lemma R_fieldMixin : Field.mixin_of R_idomainType. Proof. by []. Qed.
Canonical R_fieldType := Eval hnf in FieldType R R_fieldMixin.

Definition Rleb (x y : R) : bool := if Rle_dec x y is left _ then true else false.
Definition Rltb (x y : R) : bool := if Rlt_dec x y is left _ then true else false.
Lemma RlebP x y : reflect (Rle x y) (Rleb x y).
Proof. by rewrite /Rleb; case: Rle_dec => h; constructor. Qed.
Lemma RltbP x y : reflect (Rlt x y) (Rltb x y).
Proof. by rewrite /Rltb; case: Rlt_dec => h; constructor. Qed.

Section Order.
Local Open Scope R_scope.
Lemma Rl0_add (x y : R) : Rleb 0 x -> Rleb 0 y -> Rleb 0 (x + y).
Proof. by move=> /RlebP a /RlebP b; apply/RlebP; lra. Qed.
Lemma Rl0_mul (x y : R) : Rleb 0 x -> Rleb 0 y -> Rleb 0 (x * y).
Proof. by move=> /RlebP a /RlebP b; apply/RlebP; apply: Rmult_le_pos. Qed.
Lemma Rl0_anti (x : R) : Rleb 0 x -> Rleb x 0 -> x = 0.
Proof. by move=> /RlebP a /RlebP b; lra. Qed.
Lemma Rl_sub (x y : R) : Rleb 0 (y + - x) = Rleb x y.
Proof. by apply/RlebP/RlebP; lra. Qed.
Lemma Rl0_total (x : R) : Rleb 0 x || Rleb x 0.
Proof.
by case: (RlebP 0 x) => //= h; apply/RlebP; lra.
Qed.
Lemma Rnorm0 (x : R) : Rleb 0 x -> Rabs x = x.
Proof. by move=> /RlebP h; apply: Rabs_pos_eq. Qed.
Lemma Rl_ltdef (x y : R) : Rltb x y = (y != x) && Rleb x y.
Proof.
apply/RltbP/andP=> [h|[/eqP h /RlebP k]]; last lra.
by split; [apply/eqP; lra | apply/RlebP; lra].
Qed.
End Order.

Definition R_leMixin : realLeMixin R_idomainType :=
  @RealLeMixin R_idomainType Rleb Rltb Rabs Rl0_add Rl0_mul Rl0_anti Rl_sub Rl0_total
     Rabs_Ropp Rnorm0 Rl_ltdef.
Canonical R_porderType := POrderType ring_display R R_leMixin.
Canonical R_latticeType := LatticeType R R_leMixin.
Canonical R_distrLatticeType := DistrLatticeType R R_leMixin.
Canonical R_orderType := OrderType R R_leMixin.
Canonical R_numDomainType := NumDomainType R R_leMixin.
Canonical R_normedZmodType := NormedZmodType R R R_leMixin.
Canonical R_numFieldType := [numFieldType of R].
Canonical R_realDomainType := [realDomainType of R].
Canonical R_realFieldType := [realFieldType of R].

(** Translation between the two vocabularies. *)
Section Bridge.
Import Order.TTheory GRing.Theory Num.Theory.
Local Open Scope ring_scope.

Lemma RplusE (x y : R) : x + y = Rplus x y. Proof. by []. Qed.
Lemma RoppE (x : R) : - x = Ropp x. Proof. by []. Qed.
Lemma RminusE (x y : R) : x - y = Rminus x y. Proof. by []. Qed.
Lemma RmultE (x y : R) : x * y = Rmult x y. Proof. by []. Qed.
Lemma RinvE (x : R) : x^-1 = Rinv x. Proof. by []. Qed.
Lemma RdivE (x y : R) : x / y = Rdiv x y. Proof. by []. Qed.
Lemma R0E : (0 : R) = R0. Proof. by []. Qed.
Lemma R1E : (1 : R) = R1. Proof. by []. Qed.
Lemma RpowE (x : R) n : x ^+ n = pow x n.
Proof. by elim: n => [|n IH]; rewrite ?expr0 // exprS IH. Qed.
Lemma RnatE n : n%:R = INR n :> R.
Proof.
elim: n => // n IH; rewrite mulrSr IH; symmetry; exact: S_INR.
Qed.
Lemma RmulrnE (x : R) n : x *+ n = Rmult (INR n) x.
Proof. by rewrite -mulr_natl RnatE. Qed.
Lemma RnormE (x : R) : `|x| = Rabs x. Proof. by []. Qed.
Lemma RleP (x y : R) : reflect (Rle x y) (x <= y). Proof. exact: RlebP. Qed.
Lemma RltP (x y : R) : reflect (Rlt x y) (x < y). Proof. exact: RltbP. Qed.
End Bridge.

(** Turn mathcomp operations on R into the standard library's. *)
Ltac toR := rewrite ?(RnatE, RpowE, RmulrnE, RnormE);
  repeat match goal with
  | |- context [@GRing.add ?V ?a ?b] => change (@GRing.add V a b) with (Rplus a b)
  | |- context [@GRing.opp ?V ?a] => change (@GRing.opp V a) with (Ropp a)
  | |- context [@GRing.mul ?V ?a ?b] => change (@GRing.mul V a b) with (Rmult a b)
  | |- context [@GRing.inv ?V ?a] => change (@GRing.inv V a) with (Rinv a)
  | |- context [@GRing.zero ?V] => change (@GRing.zero V) with R0
  | |- context [@GRing.one ?V] => change (@GRing.one V) with R1
  | |- context [GRing.Ring.sort ?V] => change (GRing.Ring.sort V) with R
  | |- context [GRing.Zmodule.sort ?V] => change (GRing.Zmodule.sort V) with R
  | |- context [Num.RealField.sort ?V] => change (Num.RealField.sort V) with R
  | |- context [GRing.ComRing.sort ?V] => change (GRing.ComRing.sort V) with R
  | |- context [GRing.Field.sort ?V] => change (GRing.Field.sort V) with R
  end; simpl INR; simpl pow;
  try match goal with |- @eq _ ?a ?b => change (@eq R a b) end.
