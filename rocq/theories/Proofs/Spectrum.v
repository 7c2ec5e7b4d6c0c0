(** The power spectral density through real matrices. *)
From Coq Require Import Reals Lra.
From mathcomp Require Import all_ssreflect all_algebra.
From mathcomp.real_closed Require Import complex.
From Verif.Prelude Require Import Rstruct Psd Zmod.
From Verif.Model Require Import Array BaseKernels Spectrum.
Set Implicit Arguments.
Unset Strict Implicit.
Unset Printing Implicit Defensive.
Import Order.TTheory GRing.Theory Num.Theory.
Local Open Scope ring_scope.

Definition ii : complex R := Complex 0 1.

Lemma ii2 : ii * ii = -1.
Proof. by apply/eqP; rewrite eq_complex /= !mul0r !mul1r sub0r addr0 eqxx oppr0 /= . Qed.

Section Cx.
Variables (m n : nat).
Implicit Types A B : 'M[R]_(m, n).
Lemma toCD A B : toC (A + B) = toC A + toC B. Proof. exact: map_mxD. Qed.
Lemma toCN A : toC (- A) = - toC A. Proof. exact: map_mxN. Qed.
Lemma toC0 : toC (0 : 'M[R]_(m, n)) = 0. Proof. exact: map_mx0. Qed.
Lemma toCT A : toC A^T = (toC A)^T. Proof. by rewrite /toC map_trmx. Qed.

(** a + i b *)
Definition cx A B : 'M[complex R]_(m, n) := toC A + ii *: toC B.
Lemma cxE A B i j : cx A B i j = Complex (A i j) (B i j).
Proof.
rewrite !mxE; apply/eqP; rewrite eq_complex /=.
by rewrite !mul0r !mulr0 !mul1r !subrr !addr0 !add0r !eqxx.
Qed.
Lemma cx_split (M : 'M[complex R]_(m, n)) : M = cx (map_mx (@complex.Re R) M) (map_mx (@complex.Im R) M).
Proof. by apply/matrixP=> i j; rewrite cxE !mxE; case: (M i j). Qed.
Lemma cx_conj A B : map_mx (@conjc _) (cx A B) = cx A (- B).
Proof. by apply/matrixP=> i j; rewrite cxE mxE cxE !mxE. Qed.
Lemma cx_inj A B A' B' : cx A B = cx A' B' -> A = A' /\ B = B'.
Proof.
move=> /matrixP e; split; apply/matrixP=> i j; have := e i j; rewrite !cxE => -[] //.
Qed.
Lemma toC_cx A : toC A = cx A 0.
Proof. by rewrite /cx toC0 scaler0 addr0. Qed.
Lemma cxD A B A' B' : cx A B + cx A' B' = cx (A + A') (B + B').
Proof. by rewrite /cx !toCD scalerDr; zmod. Qed.
End Cx.

Lemma toCM m n p (A : 'M[R]_(m, n)) (B : 'M[R]_(n, p)) : toC (A *m B) = toC A *m toC B.
Proof. exact: map_mxM. Qed.
Lemma cxT m n (A B : 'M[R]_(m, n)) : (cx A B)^T = cx A^T B^T.
Proof. by rewrite /cx linearD linearZ /= !toCT. Qed.
Lemma cxM m n p (A B : 'M[R]_(m, n)) (C D : 'M[R]_(n, p)) :
  cx A B *m cx C D = cx (A *m C - B *m D) (A *m D + B *m C).
Proof.
rewrite /cx !toCD toCN !toCM mulmxDl !mulmxDr -?scalemxAl -?scalemxAr -?scalemxAl -?scalemxAr scalerA ii2 scaleN1r scalerDr.
by zmod.
Qed.
Lemma toC_mul m n p (A : 'M[R]_(m, n)) (C D : 'M[R]_(n, p)) :
  toC A *m cx C D = cx (A *m C) (A *m D).
Proof. by rewrite toC_cx cxM !mul0mx subr0 addr0. Qed.
Lemma mul_toC m n p (A B : 'M[R]_(m, n)) (C : 'M[R]_(n, p)) :
  cx A B *m toC C = cx (A *m C) (B *m C).
Proof. by rewrite toC_cx cxM !mulmx0 subr0 add0r. Qed.
Lemma cx1 n : (1%:M : 'M[complex R]_n) = cx 1%:M 0.
Proof. by rewrite -toC_cx /toC map_mx1. Qed.

Section Model.
Variables (m : model) (w : R).
Notation F := (mF m).
Notation H := (mH m (CT R0)).
Definition W := mL m *m mQc m *m (mL m)^T.

Lemma psd_matrixE : psd_matrix m w = cx F w%:M.
Proof.
apply/matrixP=> i j; rewrite cxE !mxE; apply/eqP; rewrite eq_complex /=.
by case: (i == j); rewrite /= ?mulr1n ?mulr0n /= ?addr0 ?add0r !eqxx.
Qed.

(** Where the matrix to invert is invertible. *)
Lemma psd_unit G : (F *m F + (w * w)%:M) *m G = 1%:M -> psd_matrix m w \in unitmx.
Proof.
move=> e; suff: cx F w%:M *m (cx F (- w%:M) *m toC G) = 1%:M.
  by rewrite -psd_matrixE => /mulmx1_unit[].
rewrite mulmxA cxM.
have -> : F *m F - w%:M *m - w%:M = F *m F + (w * w)%:M by rewrite mulmxN opprK -scalar_mxM.
have -> : F *m - w%:M + w%:M *m F = 0 by rewrite mulmxN scalar_mxC addNr.
rewrite toC_cx cxM e mulmx0 !mul0mx subr0 mulmx0 addr0.
by rewrite -cx1.
Qed.

Hypothesis hW : W^T = W.
Hypothesis hu : psd_matrix m w \in unitmx.

(** H conj(M), with its real and imaginary parts *)
Lemma psd_row : exists a b : 'rV[R]_(md m),
  [/\ a *m F + w *: b = H, b *m F - w *: a = 0 &
      psd_complex m w = cx (a *m W *m a^T + b *m W *m b^T) 0 0 0] .
Proof.
pose M := invmx (psd_matrix m w).
pose U := map_mx (@complex.Re R) M; pose V := map_mx (@complex.Im R) M.
have eM : M = cx U V by rewrite -cx_split.
have e := mulVmx hu; rewrite -/M eM psd_matrixE cxM cx1 in e.
have [e1 e2] := cx_inj e.
exists (H *m U), (- (H *m V)); rewrite mul_mx_scalar in e1.
rewrite mul_mx_scalar in e2.
split.
- by rewrite -mulmxA scalerN scalemxAr -mulmxBr e1 mulmx1.
- rewrite mulNmx -mulmxA scalemxAr -opprD -mulmxDr.
  by rewrite addrC e2 mulmx0 oppr0.
rewrite /psd_complex -/M.
have -> : toC H *m map_mx (conjc (R:=R_ringType)) M = cx (H *m U) (- (H *m V)).
  by rewrite eM cx_conj toC_mul mulmxN.
set r := cx _ _.
have eS : r *m toC (mL m) *m toC (mQc m) *m (toC (mL m))^T = r *m toC W.
  by rewrite /W !toCM toCT !mulmxA.
rewrite eS -mulmxA -trmx_mul eM toC_mul cxT mul_toC cxM.
have sw (x y : 'rV[R]_(md m)) : x *m W *m y^T = y *m W *m x^T.
  have t1 (A : 'M[R]_1) : A = A^T by apply/matrixP=> i j; rewrite mxE !ord1.
  by rewrite [LHS]t1 (trmx_mul (x *m W)) (trmx_mul x) trmxK hW mulmxA.
congr (cx _ _ 0 0).
- congr (_ + _); move: (H *m V) => B; have -> : (- B)^T = - B^T by rewrite linearN.
  by rewrite !mulNmx mulmxN.
- by rewrite !mulNmx [H *m V *m W *m _]sw subrr.
Qed.

Lemma psd_nonneg : psdmx W -> psd_complex m w = Complex (complex.Re (psd_complex m w)) 0 /\ 0 <= complex.Re (psd_complex m w).
Proof.
move=> pW; have [a [b [_ _ ->]]] := psd_row; rewrite cxE /=; split; first by rewrite [(0 : 'M__) _ _]mxE.
have q (x : 'rV[R]_(md m)) : 0 <= (x *m W *m x^T) 0 0.
  by have := pW.2 x^T; rewrite /qf trmxK.
by rewrite mxE addr_ge0.
Qed.

Lemma psd_of_row a b : a *m F + w *: b = H -> b *m F - w *: a = 0 ->
  complex.Re (psd_complex m w) = (a *m W *m a^T) 0 0 + (b *m W *m b^T) 0 0.
Proof.
move=> ea eb; have [a' [b' [ea' eb' ->]]] := psd_row.
suff [-> ->] : a' = a /\ b' = b by rewrite cxE mxE.
have hc : cx F (- w%:M) \in unitmx.
  have e := mulVmx hu; rewrite [invmx _]cx_split psd_matrixE cxM cx1 in e.
  have [e1 e2] := cx_inj e; set U := map_mx _ _ in e1 e2; set V := map_mx _ _ in e1 e2.
  suff /mulmx1_unit[] : cx U (- V) *m cx F (- w%:M) = 1%:M by [].
  rewrite cxM cx1; have -> : U *m F - - V *m - w%:M = 1%:M by rewrite -e1 mulNmx mulmxN opprK.
  by have -> : U *m - w%:M + - V *m F = 0 by rewrite mulmxN mulNmx -opprD e2 oppr0.
have eq a1 b1 : a1 *m F + w *: b1 = H -> b1 *m F - w *: a1 = 0 -> cx a1 b1 *m cx F (- w%:M) = toC H.
  move=> h1 h2; rewrite cxM !mulmxN opprK !mul_mx_scalar h1.
  by rewrite [- (w *: a1) + _]addrC h2 -toC_cx.
have e : cx a' b' *m cx F (- w%:M) = cx a b *m cx F (- w%:M) by rewrite !eq.
by have := congr1 (fun A => A *m invmx (cx F (- w%:M))) e; rewrite !mulmxK // => /cx_inj.
Qed.
End Model.

(** Sums *)
Lemma conj0 m n : map_mx (@conjc _) (0 : 'M[complex R]_(m, n)) = 0.
Proof. by apply/matrixP=> i j; rewrite !mxE; apply/eqP; rewrite eq_complex /= oppr0 !eqxx. Qed.
Lemma psd_sum_unit m1 m2 w : (psd_matrix (sum_model m1 m2) w \in unitmx)
  = (psd_matrix m1 w \in unitmx) && (psd_matrix m2 w \in unitmx).
Proof.
have -> : psd_matrix (sum_model m1 m2) w = block_mx (psd_matrix m1 w) 0 0 (psd_matrix m2 w).
  rewrite /psd_matrix [toC (mF (sum_model _ _))]map_block_mx !map_mx0.
  by rewrite (scalar_mx_block (md m1) (md m2)) add_block_mx !addr0.
by rewrite unitmxE det_ublock unitrM -!unitmxE.
Qed.
Lemma psd_sum_complex m1 m2 w : psd_matrix m1 w \in unitmx -> psd_matrix m2 w \in unitmx ->
  psd_matrix (sum_model m1 m2) w \in unitmx /\
  psd_complex (sum_model m1 m2) w = psd_complex m1 w + psd_complex m2 w.
Proof.
move=> u1 u2.
have eb : psd_matrix (sum_model m1 m2) w = block_mx (psd_matrix m1 w) 0 0 (psd_matrix m2 w).
  rewrite /psd_matrix [toC (mF (sum_model _ _))]map_block_mx !map_mx0.
  by rewrite (scalar_mx_block (md m1) (md m2)) add_block_mx !addr0.
have ub : block_mx (psd_matrix m1 w) 0 0 (psd_matrix m2 w) \in unitmx.
  by rewrite unitmxE det_ublock unitrM -!unitmxE u1.
split; first by rewrite eb.
rewrite /psd_complex eb (invmx_block_diag ub) map_block_mx !conj0.
move: (invmx (psd_matrix m1 w)) (invmx (psd_matrix m2 w)) => M1 M2.
rewrite [toC (mH (sum_model _ _) _)]map_row_mx [toC (mL (sum_model _ _))]map_block_mx.
rewrite [toC (mQc (sum_model _ _))]map_block_mx !map_mx0 !tr_block_mx !trmx0 tr_row_mx.
rewrite !mul_row_block !mulmx0 !addr0 !add0r mul_row_col [LHS]mxE.
done.
Qed.
