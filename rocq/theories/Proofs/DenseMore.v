(** Dense GP formulas: one more datum, equal kernels, change of units. *)
From Coq Require Import Reals Lra.
From mathcomp Require Import all_ssreflect all_algebra.
From Verif.Prelude Require Import Rstruct Psd.
From Verif.Spec Require Import Gp LogNormal Transform.
From Verif.Proofs Require Import GpExt SeqMore FitRefute IntCondThms Border.
Set Implicit Arguments.
Unset Strict Implicit.
Unset Printing Implicit Defensive.
Import Order.TTheory GRing.Theory Num.Theory.
Local Open Scope R_scope.

Section Dense.
Variables (X : Type) (x0 : X) (kern : X -> X -> R).
Hypothesis ksym : forall a b, kern a b = kern b a.

Section One.
Variables (xs : seq X) (d y : seq R) (x : X) (r v : R).
Hypothesis pg : psdmx (gram x0 kern xs).
Hypothesis dpos : forall i, (i < size xs)%N -> 0 < nth 0 d i.
Hypothesis v0 : 0 <= gp_var x0 kern xs d x.
Hypothesis r0 : 0 < r.
Let m := gp_mean x0 kern xs d y x.
Let s := gp_var x0 kern xs d x.
Let K i j := kern (nth x0 xs i) (nth x0 xs j).
Let K' i j := kern (nth x0 (x :: xs) i) (nth x0 (x :: xs) j).
Let c j := kern x (nth x0 xs j).

Lemma pd_data : pdmx (@dcov [realFieldType of R] (size xs) K d).
Proof.
apply: psdpdD => //.
have := @diag_pd [realFieldType of R] (nseq (size xs) 0%R) d; rewrite size_nseq; apply=> i hi.
by apply/RltP; apply: dpos.
Qed.
Lemma sr_pos : 0 < s + r. Proof. by have := v0; rewrite -/s => ?; lra. Qed.
Let sr' : (0 < @gpv [realFieldType of R] (size xs) K (kern x x) c d + r)%R.
Proof. by rewrite -gp_varE; apply/RltP; exact: sr_pos. Qed.

Lemma det_data : gp_det x0 kern xs d <> 0.
Proof. by apply/eqP; have := pd_unit pd_data; rewrite unitmxE unitfE. Qed.

Lemma quad_cons : gp_quad x0 kern (x :: xs) (r :: d) (v :: y)
  = gp_quad x0 kern xs d y + (v - m) ^ 2 / (s + r).
Proof.
rewrite !gp_quadE (@gpq_border [realFieldType of R] (size xs) K K' c (kern x x) r d y v) //;
  [|by move=> j _; rewrite /K' /= ksym|exact: pd_data].
by rewrite -gp_meanE -gp_varE; toR; rewrite -/m -/s; congr (_ + _); rewrite /= Rmult_1_r.
Qed.
Lemma det_cons : gp_det x0 kern (x :: xs) (r :: d) = (s + r) * gp_det x0 kern xs d.
Proof.
rewrite !gp_detE (@gpd_border [realFieldType of R] (size xs) K K' c (kern x x) r d) //;
  [by move=> j _; rewrite /K' /= ksym|exact: pd_data].
Qed.
Hypothesis dp : 0 < gp_det x0 kern xs d.
Lemma log_normal_cons : log_normal x0 kern (x :: xs) (r :: d) (v :: y)
  = log_normal x0 kern xs d y + log_normal1 v m (s + r).
Proof.
rewrite /log_normal quad_cons det_cons ln_mult; [|exact: sr_pos|exact: dp].
rewrite [size (x :: xs)]/= S_INR /log_normal1.
set a := gp_quad _ _ _ _ _; set b := ln (gp_det _ _ _ _); set e := ln (s + r); set n := INR _; set l := ln (2 * PI).
by set q := (v - m) ^ 2 / (s + r); clearbody a b e n l q; toR; lra.
Qed.
Lemma var_cons z : gp_var x0 kern (x :: xs) (r :: d) z <= gp_var x0 kern xs d z.
Proof.
apply/RleP; rewrite !gp_varE.
apply: (@gpv_border_le [realFieldType of R] (size xs) K K' c (kern x x) r d) => //.
  by move=> j _; rewrite /K' /= ksym.
exact: pd_data.
Qed.
End One.

(** The same at any position. *)
Section At.
Variables (xs : seq X) (d y : seq R) (p : nat).
Hypothesis hp : (p < size xs)%N.
Hypotheses (sd : size d = size xs) (sy : size y = size xs).
Hypothesis psd : forall l, psdmx (gram x0 kern l).
Hypothesis dpos : forall i, (i < size xs)%N -> 0 < nth 0 d i.
Let xs' := without p xs. Let d' := without p d. Let y' := without p y.
Let x := nth x0 xs p.
Hypothesis v0 : 0 <= gp_var x0 kern xs' d' x.
Let idx := p :: iota 0 p ++ iota p.+1 (size xs - p.+1).

Lemma idx_ok : perm_eq idx (iota 0 (size xs)).
Proof.
have -> : iota 0 (size xs) = iota 0 p ++ p :: iota p.+1 (size xs - p.+1).
  by rewrite -{1}(subnKC (ltnW hp)) iotaD add0n -(subnSK hp).
exact: (permEl (perm_catCA [:: p] (iota 0 p) _)).
Qed.
Lemma map_idx (T : Type) (z : T) (s : seq T) : size s = size xs ->
  [seq nth z s i | i <- idx] = nth z s p :: without p s.
Proof.
move=> e; rewrite /idx /= map_cat /without; congr (_ :: (_ ++ _)).
  by rewrite map_nth_iota0 // e ltnW.
by rewrite map_nth_iota ?e ?subnKC // take_oversize // size_drop e.
Qed.
Lemma size_without (T : Type) (s : seq T) : size s = size xs -> size (without p s) = (size xs).-1.
Proof. by move=> e; rewrite size_cat size_takel ?e 1?ltnW // size_drop e; case: (size xs) hp => // n h; rewrite subSS subnKC. Qed.
Lemma nth_without (T : Type) (z : T) s i : nth z (without p s) i = nth z s (if (i < p)%N then i else i.+1) \/
  (size s <= p)%N.
Proof.
case: (ltnP p (size s)) => h; last by right.
left; rewrite nth_cat size_takel; last exact: ltnW.
by case: ltnP => hi; [rewrite nth_take | rewrite nth_drop addSn subnKC].
Qed.
Lemma dpos' i : (i < size xs')%N -> 0 < nth 0 d' i.
Proof.
rewrite size_without // => hi; have [->|] := @nth_without _ 0 d i; last by rewrite sd leqNgt hp.
apply: dpos; case: ifP => _; case: (size xs) hp hi => // n _ /=; first by move/leqW.
Qed.
Let det0 : gp_det x0 kern xs d <> 0.
Proof. by apply: det_data. Qed.

Hypothesis dp : 0 < gp_det x0 kern xs' d'.
Lemma log_normal_at : log_normal x0 kern xs d y
  = log_normal x0 kern xs' d' y'
    + log_normal1 (nth 0 y p) (gp_mean x0 kern xs' d' y' x) (gp_var x0 kern xs' d' x + nth 0 d p).
Proof.
rewrite -(log_normal_perm y idx_ok det0) !map_idx //.
by apply: log_normal_cons => //; [exact: dpos'|exact: dpos].
Qed.
Lemma var_at z : gp_var x0 kern xs d z <= gp_var x0 kern xs' d' z.
Proof.
rewrite -(gp_var_perm idx_ok det0) !map_idx //.
by apply: var_cons => //; [exact: dpos'|exact: dpos].
Qed.
End At.
End Dense.

(** Units of the data *)
Section Units.
Variables (X : Type) (x0 : X) (kern kern' : X -> X -> R) (c : R).
Hypothesis c0 : c <> 0.
Hypothesis hk : forall a b, kern' a b = c ^ 2 * kern a b.
Variables (xs : seq X) (d y : seq R).
Let d' := [seq c ^ 2 * r | r <- d]. Let y' := [seq c * v | v <- y].
Hypotheses (sd : size d = size xs) (sy : size y = size xs).
Let cR : R := c ^ 2.

Lemma data_cov_units : data_cov (gram x0 kern' xs) (row_of _ d') = (cR *: data_cov (gram x0 kern xs) (row_of _ d))%R.
Proof.
apply/matrixP => i j; rewrite !mxE hk (nth_map 0%R) ?sd //.
by rewrite mulrDr mulrnAr.
Qed.
Hypothesis dp : 0 < gp_det x0 kern xs d.
Let Sg := data_cov (gram x0 kern xs) (row_of _ d).
Let cR0 : cR <> 0. Proof. by rewrite /cR; apply: pow_nonzero. Qed.
Lemma inv_units : (invmx (cR *: Sg) = cR^-1 *: invmx Sg)%R.
Proof.
apply: invmxZ; rewrite unitmxE detZ unitrM unitrX ?unitfE; last by apply/eqP.
by apply/eqP; apply: Rgt_not_eq.
Qed.
Let colE : col_of (size xs) y' = ((c : R) *: col_of (size xs) y)%R.
Proof. by apply/matrixP => i j; rewrite !mxE (nth_map 0%R) ?sy. Qed.
Let crossE x : cross x0 kern' x xs = (cR *: cross x0 kern x xs)%R.
Proof. by apply/matrixP => i j; rewrite !mxE hk. Qed.

Lemma mean_units x : gp_mean x0 kern' xs d' y' x = c * gp_mean x0 kern xs d y x.
Proof.
rewrite /gp_mean /post_mean data_cov_units inv_units colE crossE;
do 3! rewrite -?scalemxAl -?scalemxAr; rewrite !scalerA -/Sg [LHS]mxE; congr (_ * _)%R; toR; field; exact: cR0.
Qed.
Lemma var_units x : gp_var x0 kern' xs d' x = c ^ 2 * gp_var x0 kern xs d x.
Proof.
rewrite /gp_var /post_cov data_cov_units inv_units crossE [(cR *: _)^T%R]linearZ; do 3! rewrite -?scalemxAl -?scalemxAr; rewrite !scalerA -/Sg.
rewrite [LHS]mxE [((kern' x x)%:M : 'M_1)%R _ _]mxE mulr1n hk -/cR [X in (_ + X)%R]mxE [X in (_ - X)%R]mxE.
rewrite [in RHS]mxE [((kern x x)%:M : 'M_1)%R _ _]mxE mulr1n [X in _ = _ * (_ + X)%R]mxE.
by move: ((_ *m _) _ _)%R (kern x x) => a b; toR; field; exact: cR0.
Qed.
Lemma quad_units : gp_quad x0 kern' xs d' y' = gp_quad x0 kern xs d y.
Proof.
rewrite /gp_quad /post_mean data_cov_units inv_units colE [((c : R) *: _)^T%R]linearZ; do 3! rewrite -?scalemxAl -?scalemxAr; rewrite !scalerA.
rewrite [LHS]mxE -/Sg -[RHS]mul1r; congr (_ * _)%R; toR; rewrite /cR; field; exact: c0.
Qed.
Lemma det_units : gp_det x0 kern' xs d' = (c ^ 2) ^ size xs * gp_det x0 kern xs d.
Proof.
rewrite /gp_det data_cov_units detZ; congr (_ * _)%R.
by rewrite -/cR; elim: (size xs) => [|n IH]; rewrite ?expr0 // exprS IH.
Qed.
Lemma log_normal_units : log_normal x0 kern' xs d' y'
  = log_normal x0 kern xs d y - INR (size xs) * ln (Rabs c).
Proof.
have cp : 0 < Rabs c by apply: Rabs_pos_lt.
have c2 : c ^ 2 = Rabs c ^ 2 by rewrite pow2_abs.
rewrite /log_normal quad_units det_units ln_mult //; last by apply: pow_lt; rewrite c2; apply: pow_lt.
rewrite -Rpower_pow; last by rewrite c2; apply: pow_lt.
rewrite /Rpower ln_exp c2 -Rpower_pow // /Rpower ln_exp /= .
set a := gp_quad _ _ _ _ _; set b := ln (gp_det _ _ _ _); set n := INR (size xs); set e := ln (Rabs c); set l := ln (2 * PI).
by clearbody a b e n l; toR; lra.
Qed.
End Units.
