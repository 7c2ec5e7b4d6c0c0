(** Kronecker products of positive (semi)definite matrices.
    Nothing here refers to /repo. *)
From mathcomp Require Import all_ssreflect all_algebra.
From mathcomp.real_closed Require Import mxtens.
From Verif.Prelude Require Import Psd Zmod.
Set Implicit Arguments.
Unset Strict Implicit.
Unset Printing Implicit Defensive.
Import Order.TTheory GRing.Theory Num.Theory.
Local Open Scope ring_scope.

Section TensLin.
Variable F : comRingType.

Lemma tensDl m n p q (A B : 'M[F]_(m, n)) (C : 'M[F]_(p, q)) :
  (A + B) *t C = A *t C + B *t C.
Proof. by apply/matrixP=> i j; rewrite !mxE mulrDl. Qed.
Lemma tensDr m n p q (A : 'M[F]_(m, n)) (B C : 'M[F]_(p, q)) :
  A *t (B + C) = A *t B + A *t C.
Proof. by apply/matrixP=> i j; rewrite !mxE mulrDr. Qed.
Lemma tensNl m n p q (A : 'M[F]_(m, n)) (C : 'M[F]_(p, q)) : (- A) *t C = - (A *t C).
Proof. by apply/matrixP=> i j; rewrite !mxE mulNr. Qed.
Lemma tensNr m n p q (A : 'M[F]_(m, n)) (C : 'M[F]_(p, q)) : A *t (- C) = - (A *t C).
Proof. by apply/matrixP=> i j; rewrite !mxE mulrN. Qed.
Lemma tensBl m n p q (A B : 'M[F]_(m, n)) (C : 'M[F]_(p, q)) :
  (A - B) *t C = A *t C - B *t C.
Proof. by rewrite tensDl tensNl. Qed.
Lemma tensBr m n p q (A : 'M[F]_(m, n)) (B C : 'M[F]_(p, q)) :
  A *t (B - C) = A *t B - A *t C.
Proof. by rewrite tensDr tensNr. Qed.
Lemma tensZl m n p q c (A : 'M[F]_(m, n)) (C : 'M[F]_(p, q)) : (c *: A) *t C = c *: (A *t C).
Proof. by apply/matrixP=> i j; rewrite !mxE mulrA. Qed.
Lemma tensZr m n p q c (A : 'M[F]_(m, n)) (C : 'M[F]_(p, q)) : A *t (c *: C) = c *: (A *t C).
Proof. by apply/matrixP=> i j; rewrite !mxE mulrCA. Qed.
Lemma tens_suml I (r : seq I) m n p q (A : I -> 'M[F]_(m, n)) (C : 'M[F]_(p, q)) :
  (\sum_(i <- r) A i) *t C = \sum_(i <- r) A i *t C.
Proof.
elim: r => [|i r IH]; first by rewrite !big_nil tens0mx.
by rewrite !big_cons tensDl IH.
Qed.
Lemma tens1 m n : (1%:M : 'M[F]_m) *t (1%:M : 'M[F]_n) = 1%:M.
Proof.
apply/matrixP=> i j; case: (mxtens_indexP i) => i1 i2; case: (mxtens_indexP j) => j1 j2.
rewrite tensmxE !mxE -natrM mulnb (can_eq (@mxtens_indexK m n)).
by rewrite xpair_eqE.
Qed.

End TensLin.

Section TensPsd.
Variable F : realFieldType.

(** Every positive semidefinite matrix is a nonnegative combination of rank one
    matrices. *)
Lemma psd_decomp n (P : 'M[F]_n) : psdmx P ->
  exists s : seq (F * 'cV[F]_n), all (fun cv => 0 <= cv.1) s /\
    P = \sum_(cv <- s) cv.1 *: (cv.2 *m cv.2^T).
Proof.
elim: n P => [|n IH]; last rewrite -[n.+1]/(1 + n)%N; move=> P hP.
  by exists [::]; rewrite big_nil; split=> //; apply/matrixP=> -[].
have [sP qP] := hP.
pose e : 'cV[F]_(1 + n) := delta_mx 0 0.
pose a := qf P e; have [w wE] : {w | w = P *m e} by exists (P *m e).
have a0 : 0 <= a by apply: qP.
have ea : a = P 0 0 by rewrite /a /qf trmx_delta -rowE -colE !mxE.
have ew i : w i 0 = P i 0 by rewrite wE -colE mxE.
have [Q [hQ eQ0 ePQ]] : exists Q : 'M[F]_(1 + n), [/\ psdmx Q, Q *m e = 0 &
    exists c, 0 <= c /\ P = c *: (w *m w^T) + Q].
  case: (eqVneq a 0) => [z|nz].
    exists P; split=> //; first exact: psd_ker.
    exists 0; split=> //; by rewrite scale0r add0r.
  have ap : 0 < a by rewrite lt_neqAle eq_sym nz.
  exists (P - a^-1 *: (w *m w^T)); split.
  - split=> [|x].
      by rewrite linearB /= linearZ /= trmx_mul trmxK sP.
    have h : 0 <= qf P x - a^-1 * (bil P e x) ^+ 2.
      have := qP (x + (- (a^-1 * bil P e x)) *: e).
      rewrite qf_bil !(bilDl, bilDr) !(bilZl, bilZr) -!qf_bil -/a (bilC x e sP).
      set u := bil P e x.
      have -> : - (a^-1 * u) * (- (a^-1 * u) * a) = a^-1 * u ^+ 2.
        rewrite mulNr mulNr mulrN opprK (mulrC a^-1) -!mulrA mulVf // mulr1.
        by rewrite mulrCA -expr2.
      by rewrite !mulNr -!mulrA -!expr2 addNr addr0.
    suff -> : qf (P - a^-1 *: (w *m w^T)) x = qf P x - a^-1 * (bil P e x) ^+ 2 by [].
    rewrite qfB qfZ; congr (_ - _ * _); rewrite /qf.
    rewrite !mulmxA -(mulmxA (x^T *m w)) mul11E expr2.
    have eb : (x^T *m w) 0 0 = bil P e x by rewrite bilC // /bil wE mulmxA.
    by rewrite eb -eb -[w^T *m x]tr11 trmx_mul trmxK.
  - rewrite mulmxBl -scalemxAl -mulmxA.
    have -> : w^T *m e = a%:M.
      by apply: mx11_eq; rewrite /a wE /qf trmx_mul sP [in RHS]mxE.
    by rewrite mul_mx_scalar scalerA mulVf // scale1r wE subrr.
  - by exists a^-1; rewrite invr_ge0; split=> //; rewrite addrC subrK.
case: ePQ => c [c0 ePQ].
have eQ : Q = block_mx (0 : 'M_1) 0 0 (drsubmx Q).
  have ez : e = col_mx (1%:M : 'M_1) (0 : 'cV[F]_n).
    apply/matrixP=> i j; rewrite ord1 /e.
    case: (split_ordP (i : 'I_(1 + n))) => i' ->.
      by rewrite (col_mxEu (1%:M : 'M_1)) !mxE andbT !ord1.
    by rewrite (col_mxEd (1%:M : 'M_1)) !mxE.
  have : block_mx (ulsubmx Q) (ursubmx Q) (dlsubmx Q) (drsubmx Q)
     *m col_mx (1%:M : 'M_1) (0 : 'cV[F]_n) = 0 by rewrite (submxK Q) -ez.
  rewrite mul_block_col !mulmx1 !mulmx0 !addr0.
  rewrite -[0](@col_mx0 F 1 n 1) => /eq_col_mx [h1 h2].
  rewrite -{1}(submxK Q) h1 h2; congr block_mx.
  apply: trmx_inj; rewrite trmx0 -h2; apply/matrixP=> i j; rewrite !mxE.
  by rewrite -{1}(proj1 hQ) mxE.
set D := drsubmx _ in eQ.
have hD : psdmx D.
  split=> [|x].
    by move: (proj1 hQ); rewrite eQ tr_block_mx => /eq_block_mx [_ _ _].
  have := (proj2 hQ) (col_mx (0 : 'cV[F]_1) x : 'cV[F]_(1 + n)).
  by rewrite eQ qf_block col_mxKd col_mxKu qf0 add0r.
have [s [hs es]] := IH D hD.
exists ((c, w) :: [seq (cv.1, col_mx (0 : 'cV[F]_1) cv.2) | cv <- s]); split.
  by rewrite /= c0 all_map.
rewrite ePQ big_cons big_map /=; congr (_ + _); rewrite {}eQ {}es {IH hs}.
elim: s => [|cv s IH]; first by rewrite !big_nil block_mx_const.
rewrite !big_cons -{}IH tr_col_mx trmx0 mul_col_row mul0mx !mulmx0 mul0mx.
by rewrite scale_block_mx !scaler0 add_block_mx !addr0.
Qed.

Lemma qf_sum I (r : seq I) n (P : I -> 'M[F]_n) x :
  qf (\sum_(i <- r) P i) x = \sum_(i <- r) qf (P i) x.
Proof.
elim: r => [|i r IH]; first by rewrite !big_nil /qf mulmx0 mul0mx mxE.
by rewrite !big_cons qfD IH.
Qed.

Lemma psd_tens m n (P : 'M[F]_m) (Q : 'M[F]_n) : psdmx P -> psdmx Q -> psdmx (P *t Q).
Proof.
move=> hP hQ; have [s [hs ->]] := psd_decomp hP.
rewrite tens_suml; elim: s hs => [|cv s IH] hs; first by rewrite big_nil; apply: psd0.
case/andP: hs => h0 /IH hs; rewrite big_cons; apply: psdD => //.
rewrite tensZl; apply: psdZ => //.
have -> : (cv.2 *m cv.2^T) *t Q
   = (cv.2 *t 1%:M) *m castmx (esym (mul1n n), esym (mul1n n)) Q *m (cv.2 *t 1%:M)^T.
  have -> : castmx (esym (mul1n n), esym (mul1n n)) Q = (1%:M : 'M_1) *t Q.
    by rewrite tens_scalar_mx scale1r.
  by rewrite trmx_tens trmx1 !tensmx_mul mulmx1 mul1mx mulmx1.
apply: psd_conj; have h k (e : n = k) : psdmx (castmx (e, e) Q).
  by case: _ / e; rewrite castmx_id.
exact: h.
Qed.

Lemma tens_unit m n (P : 'M[F]_m) (Q : 'M[F]_n) :
  P \in unitmx -> Q \in unitmx -> P *t Q \in unitmx.
Proof.
move=> hP hQ; suff /mulmx1_unit[] : (P *t Q) *m (invmx P *t invmx Q) = 1%:M by [].
by rewrite tensmx_mul !mulmxV // tens1.
Qed.

Lemma pd_tens m n (P : 'M[F]_m) (Q : 'M[F]_n) : pdmx P -> pdmx Q -> pdmx (P *t Q).
Proof.
move=> hP hQ; apply: psd_unit_pd; first by apply: psd_tens; apply: pd_psd.
by apply: tens_unit; apply: pd_unit.
Qed.

End TensPsd.
