(** Double integrals of a continuous even function of the lag. *)
From Coq Require Import Reals Lra.
From mathcomp Require Import all_ssreflect all_algebra.
From Coquelicot Require Import Coquelicot.
From Verif.Prelude Require Import Rstruct MxCalc.
From Verif.Model Require Import BaseKernels.
From Verif.Spec Require Import IntCov.
Set Implicit Arguments.
Unset Strict Implicit.
Unset Printing Implicit Defensive.
Local Open Scope R_scope.

Ltac inR := match goal with |- @eq _ ?x ?y => change (@eq R x y) end.

Lemma is_derive_lin (f : R -> R) c s x l : is_derive f (c + s * x) l ->
  is_derive (fun y => f (c + s * y)) x (s * l).
Proof.
move=> h; refine (is_derive_comp f (fun y => c + s * y) x l s h _).
by auto_derive => //; ring.
Qed.

Lemma emL X f : 0 < len X -> exposure_mean X f = RInt f (begin X) (finish X) / len X.
Proof. by rewrite /exposure_mean; case: (Rlt_dec 0 (len X)). Qed.
Lemma emP X f : ~ 0 < len X -> exposure_mean X f = f (mid X).
Proof. by rewrite /exposure_mean; case: (Rlt_dec 0 (len X)). Qed.

Section Lag.
Variable kap : R -> R.
Hypothesis kap_c : forall x, continuous kap x.
Hypothesis kap_even : forall r, kap (- r) = kap r.

Definition k1 (r : R) : R := RInt kap 0 r.
Definition k2 (r : R) : R := RInt k1 0 r.

Lemma cont_RInt (f : R -> R) a b : (forall x, continuous f x) -> ex_RInt f a b.
Proof. by move=> h; apply: ex_RInt_continuous => x _; apply: h. Qed.

Lemma der_RInt (f : R -> R) x : (forall x, continuous f x) -> is_derive (fun b => RInt f 0 b) x (f x).
Proof.
move=> h; apply: (is_derive_RInt f (fun b => RInt f 0 b) 0 x) => //.
by apply: filter_forall => b; apply: RInt_correct; apply: cont_RInt.
Qed.
Lemma k1_der x : is_derive k1 x (kap x). Proof. exact: der_RInt. Qed.
Lemma k1_c x : continuous k1 x.
Proof. by apply: ex_derive_continuous; exists (kap x); apply: k1_der. Qed.
Lemma k2_der x : is_derive k2 x (k1 x). Proof. exact: der_RInt k1_c. Qed.
Lemma k1_0 : k1 0 = 0. Proof. exact: RInt_point. Qed.
Lemma k2_0 : k2 0 = 0. Proof. exact: RInt_point. Qed.

Lemma k1_odd r : k1 (- r) = - k1 r.
Proof.
have h x : der (fun s => k1 (0 + -1 * s) + k1 s) x 0.
  apply: der_eq (is_derive_plus _ _ _ _ _ (is_derive_lin (k1_der _)) (k1_der x)) _.
  rewrite /plus /=; have -> : 0 + -1 * x = - x by ring.
  by rewrite kap_even; ring.
have := der0_const h r 0.
rewrite (_ : 0 + -1 * r = - r); last by ring.
by rewrite (_ : 0 + -1 * 0 = 0); last (by ring); rewrite k1_0; lra.
Qed.
Lemma k2_even r : k2 (- r) = k2 r.
Proof.
have h x : der (fun s => k2 (0 + -1 * s) - k2 s) x 0.
  apply: der_eq (is_derive_minus _ _ _ _ _ (is_derive_lin (k2_der _)) (k2_der x)) _.
  rewrite /minus /plus /opp /=; have -> : 0 + -1 * x = - x by ring.
  by rewrite k1_odd; ring.
have := der0_const h r 0.
rewrite (_ : 0 + -1 * r = - r); last by ring.
by rewrite (_ : 0 + -1 * 0 = 0); last (by ring); rewrite k2_0; lra.
Qed.
Lemma k2_abs r : k2 (Rabs r) = k2 r.
Proof. by rewrite /Rabs; case: Rcase_abs => // _; apply: k2_even. Qed.

Lemma RInt_der (f g : R -> R) a b : (forall x, is_derive f x (g x)) -> (forall x, continuous g x) ->
  RInt g a b = f b - f a.
Proof. by move=> h c; apply: is_RInt_unique; apply: is_RInt_derive => x _; [apply: h|apply: c]. Qed.

Lemma cont_lin (f : R -> R) c s x : (forall x, continuous f x) -> continuous (fun y => f (c + s * y)) x.
Proof.
move=> h; apply: continuous_comp (h _).
apply: ex_derive_continuous; exists s.
by auto_derive => //; ring.
Qed.

Lemma int_v u a b : RInt (fun v => kap (u - v)) a b = k1 (u - a) - k1 (u - b).
Proof.
rewrite (RInt_ext _ (fun v => kap (u + -1 * v))); last by move=> v _; congr (kap _); ring.
rewrite (RInt_der (f := fun v => - k1 (u + -1 * v))).
- by inR; rewrite (_ : u + -1 * b = u - b) 1?(_ : u + -1 * a = u - a); ring.
- move=> x; have := is_derive_opp _ _ _ (is_derive_lin (s := -1) (k1_der (u + -1 * x))).
  by rewrite /opp /=; have -> : - (-1 * kap (u + -1 * x)) = kap (u + -1 * x) by ring.
- by move=> x; apply: cont_lin.
Qed.
Lemma int_u v a b : RInt (fun u => kap (u - v)) a b = k1 (b - v) - k1 (a - v).
Proof.
rewrite (RInt_ext _ (fun u => kap (- v + 1 * u))); last by move=> u _; congr (kap _); ring.
rewrite (RInt_der (f := fun u => k1 (- v + 1 * u))).
- by inR; rewrite (_ : - v + 1 * b = b - v) 1?(_ : - v + 1 * a = a - v); ring.
- move=> x; have := is_derive_lin (s := 1) (k1_der (- v + 1 * x)).
  by rewrite Rmult_1_l.
- by move=> x; apply: cont_lin.
Qed.
Lemma int_k1 v a b : RInt (fun u => k1 (u - v)) a b = k2 (b - v) - k2 (a - v).
Proof.
rewrite (RInt_ext _ (fun u => k1 (- v + 1 * u))); last by move=> u _; congr (k1 _); ring.
rewrite (RInt_der (f := fun u => k2 (- v + 1 * u))).
- by inR; rewrite (_ : - v + 1 * b = b - v) 1?(_ : - v + 1 * a = a - v); ring.
- move=> x; have := is_derive_lin (s := 1) (k2_der (- v + 1 * x)).
  by rewrite Rmult_1_l.
- by move=> x; apply: cont_lin; apply: k1_c.
Qed.
Lemma k1_lin_ex v a b : ex_RInt (fun u => k1 (u - v)) a b.
Proof.
apply: (ex_RInt_ext (fun u => k1 (- v + 1 * u)) (fun u => k1 (u - v))).
  by move=> u hu; congr (k1 _); ring.
by apply: cont_RInt => x; apply: cont_lin; apply: k1_c.
Qed.

(** The four cases of [mean_cov]. *)
Lemma mean_cov_LL X Y : 0 < len X -> 0 < len Y -> mean_cov kap X Y =
  (k2 (finish X - begin Y) - k2 (begin X - begin Y)
   - (k2 (finish X - finish Y) - k2 (begin X - finish Y))) / len X / len Y.
Proof.
move=> hX hY; rewrite /mean_cov emL //.
rewrite (RInt_ext _ (fun u => / len Y * (k1 (u - begin Y) - k1 (u - finish Y)))); last first.
  by move=> u hu; rewrite emL // int_v; inR; field; lra.
have e1 := @k1_lin_ex (begin Y) (begin X) (finish X).
have e2 := @k1_lin_ex (finish Y) (begin X) (finish X).
rewrite (RInt_scal (fun u => k1 (u - begin Y) - k1 (u - finish Y))); last exact: ex_RInt_minus.
rewrite (RInt_minus (fun u => k1 (u - begin Y)) (fun u => k1 (u - finish Y))) //.
rewrite !int_k1 /scal /= /mult /= /minus /plus /opp /=; inR; field; lra.
Qed.
Lemma begin_point X : ~ 0 < len X -> 0 <= len X -> begin X = mid X /\ finish X = mid X.
Proof. by move=> h1 h2; rewrite /begin /finish; split; lra. Qed.
Lemma mean_cov_LP X Y : 0 < len X -> ~ 0 < len Y -> mean_cov kap X Y =
  (k1 (finish X - mid Y) - k1 (begin X - mid Y)) / len X.
Proof.
move=> hX hY; rewrite /mean_cov emL // (RInt_ext _ (fun u => kap (u - mid Y))) ?int_u //.
by move=> u hu; rewrite emP.
Qed.
Lemma mean_cov_PL X Y : ~ 0 < len X -> 0 < len Y -> mean_cov kap X Y =
  (k1 (mid X - begin Y) - k1 (mid X - finish Y)) / len Y.
Proof.
by move=> hX hY; rewrite /mean_cov emP // emL // int_v.
Qed.
Lemma mean_cov_PP X Y : ~ 0 < len X -> ~ 0 < len Y -> mean_cov kap X Y = kap (mid X - mid Y).
Proof. by move=> hX hY; rewrite /mean_cov !emP. Qed.

Lemma mean_cov_sym X Y : mean_cov kap X Y = mean_cov kap Y X.
Proof.
have e (f : R -> R) a b : f (a - b) = f (- (b - a)) by congr (f _); ring.
case: (Rlt_dec 0 (len X)) => hX; case: (Rlt_dec 0 (len Y)) => hY.
- rewrite !mean_cov_LL //.
  rewrite (e k2 (finish Y)) (e k2 (begin Y)) (e k2 (finish Y) (finish X)) (e k2 (begin Y) (finish X)) !k2_even.
  field; lra.
- rewrite (mean_cov_LP hX hY) (mean_cov_PL hY hX) (e k1 (mid Y)) (e k1 (mid Y) (finish X)) !k1_odd.
  field; lra.
- rewrite (mean_cov_LP hY hX) (mean_cov_PL hX hY) (e k1 (mid X)) (e k1 (mid X) (finish Y)) !k1_odd.
  field; lra.
- by rewrite !mean_cov_PP // (e kap) kap_even.
Qed.

End Lag.

Lemma mean_cov_ext f g X Y : (forall r, f r = g r) -> mean_cov f X Y = mean_cov g X Y.
Proof.
move=> e; have e1 u : exposure_mean Y (fun v => f (u - v)) = exposure_mean Y (fun v => g (u - v)).
  case: (Rlt_dec 0 (len Y)) => h; last by rewrite !emP.
  by rewrite !emL //; congr (_ / _); apply: RInt_ext => v hv; apply: e.
rewrite /mean_cov; case: (Rlt_dec 0 (len X)) => h; last by rewrite !(emP _ h) e1.
rewrite !(emL _ h); congr (_ / _); apply: RInt_ext => u hu; apply: e1.
Qed.

Lemma mean_cov_add (f g : R -> R) X Y : (forall x, continuous f x) -> (forall x, continuous g x) ->
  (forall r, f (- r) = f r) -> (forall r, g (- r) = g r) ->
  mean_cov (fun r => f r + g r) X Y = mean_cov f X Y + mean_cov g X Y.
Proof.
move=> cf cg ef eg.
have ck x : continuous (fun r => f r + g r) x by apply: (continuous_plus f g).
have ek r : f (- r) + g (- r) = f r + g r by rewrite ef eg.
have a1 r : k1 (fun r => f r + g r) r = k1 f r + k1 g r.
  by rewrite /k1 (RInt_plus f g) //; apply: cont_RInt.
have a2 r : k2 (fun r => f r + g r) r = k2 f r + k2 g r.
  rewrite /k2 (RInt_ext _ (fun r => k1 f r + k1 g r)); last by move=> x _; rewrite a1.
  by rewrite (RInt_plus (k1 f) (k1 g)) //; apply: cont_RInt => x; apply: k1_c.
case: (Rlt_dec 0 (len X)) => hX; case: (Rlt_dec 0 (len Y)) => hY.
- by rewrite !mean_cov_LL // !a2; field; lra.
- by rewrite !mean_cov_LP // !a1; field; lra.
- by rewrite !mean_cov_PL // !a1; field; lra.
- by rewrite !mean_cov_PP.
Qed.
