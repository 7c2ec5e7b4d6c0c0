(** Positive (semi)definite matrices over an ordered field.

    Nothing in this file refers to /repo: it is plain linear algebra used by
    the specifications and the proofs. *)
From mathcomp Require Import all_ssreflect all_algebra.
Set Implicit Arguments.
Unset Strict Implicit.
Unset Printing Implicit Defensive.
Import Order.TTheory GRing.Theory Num.Theory.
Local Open Scope ring_scope.

Section Psd.
Variable F : realFieldType.

(** The quadratic form x^T P x. *)
Definition qf n (P : 'M[F]_n) (x : 'cV[F]_n) : F := (x^T *m P *m x) 0 0.

(** Symmetric positive semidefinite. *)
Definition psdmx n (P : 'M[F]_n) : Prop :=
  P^T = P /\ forall x : 'cV[F]_n, 0 <= qf P x.

(** Symmetric positive definite. *)
Definition pdmx n (P : 'M[F]_n) : Prop :=
  P^T = P /\ forall x : 'cV[F]_n, x != 0 -> 0 < qf P x.

(** Symmetric part, used by code that writes [0.5 * (X + X.T)]. *)
Definition symmx n (P : 'M[F]_n) : 'M[F]_n := 2%:R^-1 *: (P + P^T).

Lemma symmx_id n (P : 'M[F]_n) : P^T = P -> symmx P = P.
Proof.
move=> sP; rewrite /symmx sP -mulr2n -scaler_nat scalerA mulVf ?scale1r //.
by rewrite pnatr_eq0.
Qed.

Lemma mx11E (M : 'M[F]_1) : M = (M 0 0)%:M.
Proof. exact: mx11_scalar. Qed.

Lemma mx11_eq (M N : 'M[F]_1) : M 0 0 = N 0 0 -> M = N.
Proof. by move=> e; rewrite (mx11E M) (mx11E N) e. Qed.

Lemma mul11E (M N : 'M[F]_1) : (M *m N) 0 0 = M 0 0 * N 0 0.
Proof. by rewrite mxE big_ord1. Qed.

Lemma tr11 (M : 'M[F]_1) : M^T = M.
Proof. by apply: mx11_eq; rewrite mxE. Qed.

Lemma unit11 (M : 'M[F]_1) : (M \in unitmx) = (M 0 0 != 0).
Proof. by rewrite unitmxE det_mx11 unitfE. Qed.

Lemma inv11 (M : 'M[F]_1) : invmx M 0 0 = (M 0 0)^-1.
Proof.
case: (boolP (M 0 0 == 0)) => [/eqP e|nz].
  by rewrite /invmx unit11 e eqxx /= e invr0.
apply: (mulfI nz); rewrite -mul11E mulmxV ?unit11 //.
by rewrite mxE eqxx mulfV.
Qed.

Lemma qfE n (P : 'M[F]_n) x : (qf P x)%:M = x^T *m P *m x.
Proof. by rewrite /qf -mx11E. Qed.

Lemma qf0 n (P : 'M[F]_n) : qf P 0 = 0.
Proof. by rewrite /qf mulmx0 mxE. Qed.

Lemma qf0l n (x : 'cV[F]_n) : qf 0 x = 0.
Proof. by rewrite /qf mulmx0 mul0mx mxE. Qed.

Lemma qfD n (P Q : 'M[F]_n) x : qf (P + Q) x = qf P x + qf Q x.
Proof. by rewrite /qf mulmxDr mulmxDl mxE. Qed.

Lemma qfB n (P Q : 'M[F]_n) x : qf (P - Q) x = qf P x - qf Q x.
Proof. by rewrite /qf mulmxBr mulmxBl mxE [X in _ + X]mxE. Qed.

Lemma qfN n (P : 'M[F]_n) x : qf (- P) x = - qf P x.
Proof. by rewrite /qf mulmxN mulNmx mxE. Qed.

Lemma qfZ n c (P : 'M[F]_n) x : qf (c *: P) x = c * qf P x.
Proof. by rewrite /qf -scalemxAr -scalemxAl mxE. Qed.

Lemma qf_tr n (P : 'M[F]_n) x : qf P^T x = qf P x.
Proof. by rewrite /qf -[x^T *m P *m x]tr11 !trmx_mul trmxK mulmxA. Qed.

Lemma qf_conj m n (B : 'M[F]_(m, n)) (P : 'M[F]_n) x :
  qf (B *m P *m B^T) x = qf P (B^T *m x).
Proof. by rewrite /qf trmx_mul trmxK !mulmxA. Qed.

(** Sum of squares. *)
Lemma qf1 n (x : 'cV[F]_n) : qf 1%:M x = \sum_i x i 0 ^+ 2.
Proof. by rewrite /qf mulmx1 mxE; apply: eq_bigr => i _; rewrite mxE expr2. Qed.

Lemma qf1_ge0 n (x : 'cV[F]_n) : 0 <= qf 1%:M x.
Proof. by rewrite qf1 sumr_ge0 // => i _; apply: sqr_ge0. Qed.

Lemma qf1_gt0 n (x : 'cV[F]_n) : x != 0 -> 0 < qf 1%:M x.
Proof.
move=> nz; rewrite lt_neqAle qf1_ge0 andbT eq_sym.
apply: contra nz => /eqP; rewrite qf1 => /eqP.
rewrite psumr_eq0 => [/allP h|i _]; last exact: sqr_ge0.
apply/eqP/matrixP=> i j; rewrite ord1 [RHS]mxE.
by apply/eqP; have := h i (mem_index_enum _); rewrite sqrf_eq0.
Qed.

Lemma pd1 n : pdmx (1%:M : 'M[F]_n).
Proof. by split; [rewrite trmx1 | apply: qf1_gt0]. Qed.

Lemma psd0 n : psdmx (0 : 'M[F]_n).
Proof. by split=> [|x]; [rewrite trmx0 | rewrite qf0l]. Qed.

Lemma pd_psd n (P : 'M[F]_n) : pdmx P -> psdmx P.
Proof.
move=> [sP hP]; split=> // x.
by case: (eqVneq x 0) => [->|/hP/ltW //]; rewrite qf0.
Qed.

Lemma psdD n (P Q : 'M[F]_n) : psdmx P -> psdmx Q -> psdmx (P + Q).
Proof.
move=> [sP hP] [sQ hQ]; split=> [|x]; first by rewrite linearD /= sP sQ.
by rewrite qfD addr_ge0.
Qed.

Lemma pdD n (P Q : 'M[F]_n) : pdmx P -> psdmx Q -> pdmx (P + Q).
Proof.
move=> [sP hP] [sQ hQ]; split=> [|x nz]; first by rewrite linearD /= sP sQ.
by rewrite qfD ltr_paddr ?hP.
Qed.

Lemma psdpdD n (P Q : 'M[F]_n) : psdmx P -> pdmx Q -> pdmx (P + Q).
Proof. by move=> hP hQ; rewrite addrC; apply: pdD. Qed.

Lemma psdZ n c (P : 'M[F]_n) : 0 <= c -> psdmx P -> psdmx (c *: P).
Proof.
move=> c0 [sP hP]; split=> [|x]; first by rewrite linearZ /= sP.
by rewrite qfZ mulr_ge0.
Qed.

Lemma pdZ n c (P : 'M[F]_n) : 0 < c -> pdmx P -> pdmx (c *: P).
Proof.
move=> c0 [sP hP]; split=> [|x nz]; first by rewrite linearZ /= sP.
by rewrite qfZ mulr_gt0 ?hP.
Qed.

Lemma tr_conj m n (B : 'M[F]_(m, n)) (P : 'M[F]_n) :
  P^T = P -> (B *m P *m B^T)^T = B *m P *m B^T.
Proof. by move=> sP; rewrite !trmx_mul trmxK sP mulmxA. Qed.

Lemma psd_conj m n (B : 'M[F]_(m, n)) (P : 'M[F]_n) :
  psdmx P -> psdmx (B *m P *m B^T).
Proof.
by move=> [sP hP]; split=> [|x]; [apply: tr_conj | rewrite qf_conj].
Qed.

Lemma psd_conjt m n (B : 'M[F]_(n, m)) (P : 'M[F]_n) :
  psdmx P -> psdmx (B^T *m P *m B).
Proof. by move=> hP; rewrite -[X in _ *m X]trmxK; apply: psd_conj. Qed.

Lemma mulmx_unit_eq0 n k (B : 'M[F]_n) (x : 'M[F]_(n, k)) :
  B \in unitmx -> (B *m x == 0) = (x == 0).
Proof.
move=> uB; apply/eqP/eqP=> [h|->]; last by rewrite mulmx0.
by rewrite -[x](mulKmx uB) h mulmx0.
Qed.

Lemma pd_conj n (B P : 'M[F]_n) :
  B \in unitmx -> pdmx P -> pdmx (B *m P *m B^T).
Proof.
move=> uB [sP hP]; split=> [|x nz]; first exact: tr_conj.
by rewrite qf_conj hP // mulmx_unit_eq0 ?unitmx_tr.
Qed.

Lemma pd_conjt n (B P : 'M[F]_n) :
  B \in unitmx -> pdmx P -> pdmx (B^T *m P *m B).
Proof.
by move=> uB hP; rewrite -[X in _ *m X]trmxK; apply: pd_conj; rewrite ?unitmx_tr.
Qed.

Lemma unitmx_ker n (P : 'M[F]_n) :
  (forall x : 'cV[F]_n, P *m x = 0 -> x = 0) -> P \in unitmx.
Proof.
move=> h; rewrite -unitmx_tr -row_free_unit -kermx_eq0.
apply/eqP/row_matrixP=> i; rewrite row0.
have: row i (kermx P^T) *m P^T = 0 by rewrite -row_mul mulmx_ker row0.
move/(congr1 trmx); rewrite trmx_mul trmxK trmx0 => /h e.
by apply: trmx_inj; rewrite e trmx0.
Qed.

Lemma pd_unit n (P : 'M[F]_n) : pdmx P -> P \in unitmx.
Proof.
move=> [sP hP]; apply: unitmx_ker => x Px0; apply/eqP; apply: contraT => /hP.
by rewrite /qf -mulmxA Px0 mulmx0 mxE ltxx.
Qed.

Lemma inv_sym n (P : 'M[F]_n) : P^T = P -> (invmx P)^T = invmx P.
Proof. by move=> sP; rewrite trmx_inv sP. Qed.

Lemma inv_conj n (P : 'M[F]_n) : P \in unitmx -> P^T = P ->
  invmx P = invmx P *m P *m (invmx P)^T.
Proof. by move=> uP sP; rewrite inv_sym // mulVmx // mul1mx. Qed.

Lemma pd_inv n (P : 'M[F]_n) : pdmx P -> pdmx (invmx P).
Proof.
move=> hP; have uP := pd_unit hP; rewrite inv_conj ?(proj1 hP) //.
by apply: pd_conj; rewrite ?unitmx_inv.
Qed.

(** For a PSD matrix the zeros of the form are the kernel. *)
Definition bil n (P : 'M[F]_n) (x y : 'cV[F]_n) : F := (x^T *m P *m y) 0 0.

Lemma bilC n (P : 'M[F]_n) x y : P^T = P -> bil P x y = bil P y x.
Proof. by move=> sP; rewrite /bil -[y^T *m P *m x]tr11 !trmx_mul trmxK sP mulmxA. Qed.

Lemma qf_bil n (P : 'M[F]_n) x : qf P x = bil P x x.
Proof. by []. Qed.

Lemma bilDl n (P : 'M[F]_n) x y z : bil P (x + y) z = bil P x z + bil P y z.
Proof. by rewrite /bil linearD /= !mulmxDl mxE. Qed.

Lemma bilDr n (P : 'M[F]_n) x y z : bil P z (x + y) = bil P z x + bil P z y.
Proof. by rewrite /bil mulmxDr mxE. Qed.

Lemma bilZl n (P : 'M[F]_n) c x y : bil P (c *: x) y = c * bil P x y.
Proof. by rewrite /bil linearZ /= -!scalemxAl mxE. Qed.

Lemma bilZr n (P : 'M[F]_n) c x y : bil P x (c *: y) = c * bil P x y.
Proof. by rewrite /bil -!scalemxAr mxE. Qed.

Lemma psd_cs n (P : 'M[F]_n) x y : psdmx P -> qf P x = 0 -> bil P y x = 0.
Proof.
move=> [sP hP] Px0; apply/eqP; apply: contraT => nz.
pose c := - (qf P y + 1) / (2%:R * bil P y x).
have nz2 : (2%:R : F) != 0 by rewrite pnatr_eq0.
have := hP (y + c *: x).
rewrite qf_bil bilDl !bilDr !bilZl !bilZr -!qf_bil Px0 !mulr0 addr0.
rewrite [bil P x y]bilC // -addrA -mulr2n -mulr_natl.
have -> : 2%:R * (c * bil P y x) = - (qf P y + 1).
  by rewrite mulrCA /c divfK ?mulf_neq0.
by rewrite opprD addrA subrr add0r oppr_ge0 lt_geF ?ltr01.
Qed.

Lemma bil_eq0 n (P : 'M[F]_n) x : (forall y, bil P y x = 0) -> P *m x = 0.
Proof.
move=> h; apply/matrixP=> i j; rewrite ord1 [RHS]mxE.
have := h (delta_mx i 0); rewrite /bil -mulmxA trmx_delta.
by rewrite -rowE mxE.
Qed.

Lemma psd_ker n (P : 'M[F]_n) x : psdmx P -> qf P x = 0 -> P *m x = 0.
Proof. by move=> hP Px0; apply: bil_eq0 => y; apply: psd_cs. Qed.

Lemma psd_unit_pd n (P : 'M[F]_n) : psdmx P -> P \in unitmx -> pdmx P.
Proof.
move=> hP uP; split=> [|x nz]; first exact: (proj1 hP).
rewrite lt_neqAle (proj2 hP) andbT eq_sym; apply: contra nz => /eqP e.
by rewrite -(mulmx_unit_eq0 x uP) (psd_ker hP e).
Qed.

Lemma pdP n (P : 'M[F]_n) : psdmx P ->
  (forall x, qf P x = 0 -> x = 0) -> pdmx P.
Proof.
move=> hP h; split=> [|x nz]; first exact: (proj1 hP).
rewrite lt_neqAle (proj2 hP) andbT eq_sym.
by apply: contra nz => /eqP /h ->.
Qed.

Lemma pd_qf0 n (P : 'M[F]_n) x : pdmx P -> qf P x = 0 -> x = 0.
Proof.
move=> [_ hP] e; apply/eqP; apply: contraT => /hP.
by rewrite e ltxx.
Qed.

(** 1x1 matrices. *)
Lemma pd11 (P : 'M[F]_1) : 0 < P 0 0 -> pdmx P.
Proof.
move=> h; apply: pdP => [|x].
  split=> [|x]; first exact: tr11.
  by rewrite /qf !mul11E mxE mulrAC -expr2 mulr_ge0 ?sqr_ge0 // ltW.
rewrite /qf !mul11E mxE mulrAC -expr2 => /eqP.
rewrite mulf_eq0 sqrf_eq0 (gt_eqF h) orbF => /eqP e.
by apply: mx11_eq; rewrite e mxE.
Qed.

Lemma psd11 (P : 'M[F]_1) : 0 <= P 0 0 -> psdmx P.
Proof.
move=> h; split=> [|x]; first exact: tr11.
by rewrite /qf !mul11E mxE mulrAC -expr2 mulr_ge0 ?sqr_ge0.
Qed.

Lemma psd11_ge0 (P : 'M[F]_1) : psdmx P -> 0 <= P 0 0.
Proof. by case=> _ /(_ 1%:M); rewrite /qf trmx1 mul1mx mulmx1. Qed.

Lemma pd11_gt0 (P : 'M[F]_1) : pdmx P -> 0 < P 0 0.
Proof.
by case=> _ /(_ 1%:M); rewrite /qf trmx1 mul1mx mulmx1; apply; rewrite oner_neq0.
Qed.

(** I + C J is invertible for PSD C and J, and (I + C J)^-1 C is PSD. *)
Lemma unit_1CJ n (C J : 'M[F]_n) :
  psdmx C -> psdmx J -> 1%:M + C *m J \in unitmx.
Proof.
move=> hC hJ; apply: unitmx_ker => x; rewrite mulmxDl mul1mx => /eqP.
rewrite addr_eq0 => /eqP e.
have e0 : qf J x = 0.
  apply/eqP; rewrite eq_le (proj2 hJ) andbT.
  have -> : qf J x = - qf C (J *m x).
    rewrite /qf trmx_mul (proj1 hJ) [in LHS]e.
    by rewrite -e [in X in _ *m X]e mulmxN mxE !mulmxA.
  by rewrite oppr_le0 (proj2 hC).
by rewrite e -mulmxA (psd_ker hJ e0) mulmx0 oppr0.
Qed.

Lemma psd_1CJC n (C J : 'M[F]_n) : psdmx C -> psdmx J ->
  psdmx (invmx (1%:M + C *m J) *m C).
Proof.
move=> hC hJ; have uD := unit_1CJ hC hJ.
have sC := proj1 hC; have sJ := proj1 hJ.
set D := 1%:M + C *m J in uD *.
have DT : D^T = 1%:M + J *m C by rewrite /D linearD /= trmx1 trmx_mul sC sJ.
have comm : C *m D^T = D *m C.
  by rewrite DT /D mulmxDr mulmxDl mulmx1 mul1mx mulmxA.
have -> : invmx D *m C = invmx D *m (C + C *m J *m C^T) *m (invmx D)^T.
  rewrite sC; have -> : C + C *m J *m C = C *m D^T.
    by rewrite DT mulmxDr mulmx1 mulmxA.
  by rewrite -!mulmxA -trmx_mul mulVmx // trmx1 mulmx1.
by apply/psd_conj/psdD => //; apply: psd_conj.
Qed.

(** Block-diagonal matrices. *)
Lemma qf_block m n (A : 'M[F]_m) (B : 'M[F]_n) x :
  qf (block_mx A 0 0 B) x = qf A (usubmx x) + qf B (dsubmx x).
Proof.
rewrite /qf -{1 2}[x]vsubmxK tr_col_mx mul_row_block !mulmx0 addr0 add0r.
by rewrite mul_row_col mxE.
Qed.

Lemma psd_block m n (A : 'M[F]_m) (B : 'M[F]_n) :
  psdmx A -> psdmx B -> psdmx (block_mx A 0 0 B).
Proof.
move=> [sA hA] [sB hB]; split=> [|x]; first by rewrite tr_block_mx sA sB !trmx0.
by rewrite qf_block addr_ge0.
Qed.

Lemma pd_block m n (A : 'M[F]_m) (B : 'M[F]_n) :
  pdmx A -> pdmx B -> pdmx (block_mx A 0 0 B).
Proof.
move=> hA hB; apply: pdP; first by apply: psd_block; apply: pd_psd.
move=> x; rewrite qf_block => /eqP.
rewrite paddr_eq0 ?(proj2 (pd_psd hA)) ?(proj2 (pd_psd hB)) //.
case/andP=> /eqP /(pd_qf0 hA) a0 /eqP /(pd_qf0 hB) b0.
by rewrite -[x]vsubmxK a0 b0 col_mx0.
Qed.

End Psd.
