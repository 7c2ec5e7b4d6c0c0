(** One step of the parallel scans is one step of the sequential recursions. *)
From mathcomp Require Import all_ssreflect all_algebra.
From Verif.Prelude Require Import Psd Zmod.
From Verif.Model Require Import Jax Ssm Sequential Parallel.
From Verif.Proofs Require Import KalmanPd SeqExact FilterElem.
Set Implicit Arguments.
Unset Strict Implicit.
Unset Printing Implicit Defensive.
Import Order.TTheory GRing.Theory Num.Theory.
Local Open Scope ring_scope.

Lemma mx11s (F : realFieldType) (M : 'M[F]_1) : M = (M 0 0)%:M.
Proof. by apply/matrixP => i j; rewrite !ord1 mxE eqxx mulr1n. Qed.
Lemma inv11s (F : realFieldType) (a : F) : invmx (a%:M : 'M_1) = (a^-1)%:M.
Proof. by rewrite invmx_scalar. Qed.

Section Step.
Variables (F : realFieldType) (d : nat).
Variables (H : 'M[F]_(1, d)) (y r : F).
Hypothesis r0 : 0 < r.

(** A measurement as an element: l = l' + H^T r^-1 (y - H x). *)
Definition upd_elem : felem F d := FElem 1%:M 0 0 (r^-1 *: (H^T *m y%:M)) (r^-1 *: (H^T *m H)).
Definition pred_elem (Phi Q : 'M[F]_d) : felem F d := FElem Phi 0 Q 0 0.
Definition state_elem (m : 'cV[F]_d) (P : 'M[F]_d) : felem F d := FElem 0 m P 0 0.

Lemma psd_upd : psdmx (r^-1 *: (H^T *m H)).
Proof.
have -> : r^-1 *: (H^T *m H) = H^T *m (r^-1)%:M *m (H^T)^T.
  by rewrite mul_mx_scalar -scalemxAl trmxK.
by apply: psd_conj; apply: psd11; rewrite mxE eqxx mulr1n invr_ge0 ltW.
Qed.

Section Gain.
Variable P : 'M[F]_d.
Hypothesis pP : psdmx P.
Let S_ := H *m P *m H^T + r%:M.
Definition gain : 'M[F]_(d, 1) := (solve S_^T (P *m H^T)^T)^T.
Let K := gain.

Lemma gainS : K *m S_ = P *m H^T.
Proof. by apply: solveTT; apply: (Sk_unit (erefl : S_ = _)). Qed.

Lemma HPH : H *m P *m H^T = S_ - r%:M. Proof. by rewrite /S_ addrK. Qed.
Lemma unitS : S_ \in unitmx. Proof. exact: (Sk_unit (erefl : S_ = _)). Qed.

Lemma gain_inv : invmx (1%:M + P *m (r^-1 *: (H^T *m H))) = 1%:M - K *m H.
Proof.
have uD := unit_1CJ pP psd_upd; set D := 1%:M + _ in uD *.
have e : (1%:M - K *m H) *m D = 1%:M.
  rewrite /D -scalemxAr mulmxDr mulmx1 -scalemxAr mulmxBl mul1mx.
  have -> : K *m H *m (P *m (H^T *m H)) = K *m (H *m P *m H^T) *m H by rewrite !mulmxA.
  rewrite HPH mulmxBr mulmxBl gainS mul_mx_scalar !mulmxA opprB addrCA subrr addr0.
  by rewrite -scalemxAl scalerA mulVf ?gt_eqF // scale1r subrK.
by apply: (can_inj (mulmxK uD)); rewrite mulVmx // e.
Qed.

Lemma gain_r : r^-1 *: ((1%:M - K *m H) *m (P *m H^T)) = K.
Proof.
have -> : (1%:M - K *m H) *m (P *m H^T) = P *m H^T - K *m (H *m P *m H^T).
  by rewrite mulmxBl mul1mx !mulmxA.
by rewrite HPH mulmxBr gainS mul_mx_scalar opprB addrCA subrr addr0 scalerA mulVf ?gt_eqF // scale1r.
Qed.

Lemma gainHP : K *m H *m P = K *m S_ *m K^T.
Proof.
have e : S_ *m K^T = H *m P.
  by rewrite -[LHS]trmxK trmx_mul trmxK (tr11 S_) gainS trmx_mul trmxK (proj1 pP).
by rewrite -!mulmxA e.
Qed.

Lemma gain_y (z : 'M[F]_1) : (1%:M - K *m H) *m (P *m (r^-1 *: (H^T *m z))) = K *m z.
Proof.
by rewrite -!scalemxAr -[in RHS]gain_r -scalemxAl -!mulmxA.
Qed.

Lemma upd_combine m : filter_combine (state_elem m P) upd_elem
  = state_elem (m + K *m (y%:M - H *m m)) (P - K *m S_ *m K^T).
Proof.
have o1 : okf (state_elem m P) by split=> //=; exact: psd0.
have o2 : okf upd_elem by split; [exact: psd0 | exact: psd_upd].
rewrite combineE // /state_elem /= /solve gain_inv !trmx0 !mulmx0 !mul0mx !mul1mx trmx1 mulmx1 !addr0.
congr FElem; last by rewrite mulmxBl mul1mx gainHP.
by rewrite [LHS]mulmxDr gain_y; mxzmod.
Qed.

Lemma gainT_inv : r^-1 *: (invmx (1%:M + (r^-1 *: (H^T *m H)) *m P) *m H^T) = H^T *m invmx S_.
Proof.
rewrite -(trD1 pP psd_upd) -trmx_inv gain_inv.
have h : (1%:M - K *m H)^T *m H^T *m S_ = r *: H^T.
  rewrite linearB /= trmx1 trmx_mul !mulmxBl mul1mx -!mulmxA.
  have -> : K^T *m (H^T *m S_) = S_ - r%:M.
    by rewrite mulmxA -trmx_mul (tr11 (H *m K)) -mulmxA gainS mulmxA HPH.
  by rewrite mulmxBr mul_mx_scalar opprB addrCA subrr addr0.
apply: (can_inj (mulmxK unitS)).
by rewrite -scalemxAl h scalerA mulVf ?gt_eqF // scale1r -mulmxA mulVmx ?unitS // mulmx1.
Qed.

Lemma generic_split Phi : make_generic_params Phi P H y r
  = filter_combine (pred_elem Phi P) upd_elem.
Proof.
have o1 : okf (pred_elem Phi P) by split=> //=; exact: psd0.
have o2 : okf upd_elem by split; [exact: psd0 | exact: psd_upd].
rewrite combineE // /make_generic_params -/S_ -/K /= /solve gain_inv !mul1mx trmx1 !mulmx1 !addr0 add0r.
rewrite mulmx0 subr0.
congr FElem.
- by rewrite gain_y.
- by rewrite -scalemxAr [in RHS]mulmxA [in RHS]scalemxAl gainT_inv !mulmxA.
- rewrite trmx_mul trmxK -scalemxAr [in RHS]mulmxA [in RHS]scalemxAl gainT_inv !mulmxA.
  by rewrite trmxK.
Qed.
End Gain.

Lemma pred_combine m P Phi Q : psdmx P -> psdmx Q ->
  filter_combine (state_elem m P) (pred_elem Phi Q) = state_elem (Phi *m m) (Phi *m P *m Phi^T + Q).
Proof.
move=> pP pQ.
have o1 : okf (state_elem m P) by split=> //=; exact: psd0.
have o2 : okf (pred_elem Phi Q) by split=> //=; exact: psd0.
rewrite combineE // /state_elem /pred_elem /= /solve !mulmx0 !mul0mx !addr0 trmx0 !mul0mx.
by rewrite invmx1 !mul1mx.
Qed.

(** The fields A, b, C of a combination only depend on those of its left argument. *)
Lemma combine_left (e1 e2 e : felem F d) : fA e1 = fA e2 -> fb e1 = fb e2 -> fC e1 = fC e2 ->
  [/\ fA (filter_combine e1 e) = fA (filter_combine e2 e),
      fb (filter_combine e1 e) = fb (filter_combine e2 e) &
      fC (filter_combine e1 e) = fC (filter_combine e2 e)].
Proof. by case: e1 e2 e => ?????[?????][?????] /= -> -> ->. Qed.

Lemma combine_step (e : felem F d) m P Phi Q : psdmx P -> psdmx Q ->
  fA e = 0 -> fb e = m -> fC e = P ->
  let e' := filter_combine e (make_generic_params Phi Q H y r) in
  let mp := Phi *m m in let Pp := Phi *m P *m Phi^T + Q in
  let S_ := H *m Pp *m H^T + r%:M in
  [/\ fA e' = 0, fb e' = mp + gain Pp *m (y%:M - H *m mp)
    & fC e' = Pp - gain Pp *m S_ *m (gain Pp)^T].
Proof.
move=> pP pQ eA eb eC /=.
have [-> -> ->] := @combine_left e (state_elem m P) (make_generic_params Phi Q H y r) eA eb eC.
have o1 : okf (state_elem m P) by split=> //=; exact: psd0.
have o2 : okf (pred_elem Phi Q) by split=> //=; exact: psd0.
have o3 : okf upd_elem by split; [exact: psd0 | exact: psd_upd].
have pPp : psdmx (Phi *m P *m Phi^T + Q) by apply: psdD => //; apply: psd_conj.
by rewrite generic_split // filter_combine_assoc // pred_combine // upd_combine.
Qed.

Lemma first_step P : psdmx P ->
  let e := make_first_params 1%:M H 0 P y r in
  let S_ := H *m P *m H^T + r%:M in
  [/\ fA e = 0, fb e = 0 + gain P *m (y%:M - H *m 0), fC e = P - gain P *m S_ *m (gain P)^T & okf e].
Proof.
move=> pP; rewrite /make_first_params /= !mul1mx trmx1 !mulmx1 !mul1mx; split=> //.
split=> /=; first by apply: (update_psd erefl) (ltW r0) => //; apply: gainS.
rewrite /solve mulmxA; apply: psd_conj; apply: psd11.
rewrite [_ + _]mx11s inv11s mxE eqxx mulr1n invr_ge0 ltW //.
exact: (Sk_gt0 erefl).
Qed.

End Step.
