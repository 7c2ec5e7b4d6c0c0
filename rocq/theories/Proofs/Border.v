(** Dense GP formulas with one more datum. *)
From mathcomp Require Import all_ssreflect all_algebra.
From Verif.Prelude Require Import Psd Zmod.
From Verif.Spec Require Import Gp.
From Verif.Proofs Require Import GpExt.
Set Implicit Arguments.
Unset Strict Implicit.
Unset Printing Implicit Defensive.
Import Order.TTheory GRing.Theory Num.Theory.
Local Open Scope ring_scope.

Section Border.
Variable F : realFieldType.
Variables (n : nat) (M : 'M[F]_n) (c : 'rV[F]_n) (a : F).
Hypothesis uM : M \in unitmx.
Hypothesis sM : M^T = M.
Let Mi := invmx M.
Definition schur : F := a - (c *m Mi *m c^T) 0 0.
Hypothesis s0 : schur != 0.
Definition bordered : 'M[F]_(1 + n) := block_mx a%:M c c^T M.
Let U : 'M[F]_(1 + n) := block_mx 1%:M (c *m Mi) 0 1%:M.
Let Ui : 'M[F]_(1 + n) := block_mx 1%:M (- (c *m Mi)) 0 1%:M.
Let D : 'M[F]_(1 + n) := block_mx schur%:M 0 0 M.
Let Di : 'M[F]_(1 + n) := block_mx schur^-1%:M 0 0 Mi.

Lemma Mi_sym : Mi^T = Mi. Proof. exact: inv_sym. Qed.

Lemma border_factor : bordered = U *m D *m U^T.
Proof.
rewrite /U tr_block_mx !trmx1 trmx0 trmx_mul Mi_sym !mulmx_block.
rewrite !mul1mx !mulmx1 !mul0mx !mulmx0 !addr0 !add0r -[c *m Mi *m M]mulmxA (mulVmx uM) mulmx1.
rewrite (mulmxA M) (mulmxV uM) mul1mx /bordered; congr (block_mx _ _ _ _).
apply: mx11_eq; rewrite [RHS]mxE [schur%:M 0 0]mxE [LHS]mxE !mulr1n mulmxA /schur subrK //.
Qed.
Lemma border_inv : invmx bordered = Ui^T *m Di *m Ui.
Proof.
have UUi : U *m Ui = 1%:M.
  by rewrite mulmx_block !mul1mx !mulmx1 !mulmx0 !mul0mx !addr0 !add0r addNr -scalar_mx_block.
have UUt : U^T *m Ui^T = 1%:M by rewrite -trmx_mul (mulmx1C UUi) trmx1.
have DDi : D *m Di = 1%:M.
  rewrite mulmx_block !mulmx0 !mul0mx !addr0 !add0r (mulmxV uM) -scalar_mxM (mulfV s0) -scalar_mx_block //.
have e : bordered *m (Ui^T *m Di *m Ui) = 1%:M.
  rewrite border_factor !mulmxA -[U *m D *m U^T *m Ui^T]mulmxA UUt mulmx1.
  by rewrite -[U *m D *m Di]mulmxA DDi mulmx1.
have [u _] := mulmx1_unit e.
by have := congr1 (mulmx (invmx bordered)) e; rewrite (mulKmx u) mulmx1 => <-.
Qed.
Lemma border_unit : bordered \in unitmx.
Proof.
rewrite unitmxE border_factor !det_mulmx det_tr !det_ublock !det1 !mulr1 !mul1r det_scalar1.
by rewrite unitrM unitfE s0 -unitmxE.
Qed.
Lemma border_det : \det bordered = schur * \det M.
Proof. by rewrite border_factor !det_mulmx det_tr !det_ublock !det1 !mulr1 !mul1r det_scalar1. Qed.

Lemma border_form (p p' : F) (q q' : 'rV[F]_n) :
  (row_mx p%:M q *m invmx bordered *m (row_mx p'%:M q')^T) 0 0
  = (q *m Mi *m q'^T) 0 0
    + (p - (q *m Mi *m c^T) 0 0) * (p' - (q' *m Mi *m c^T) 0 0) / schur.
Proof.
have e (x : F) (z : 'rV[F]_n) : row_mx x%:M z *m Ui^T = row_mx (x - (z *m Mi *m c^T) 0 0)%:M z.
  rewrite tr_block_mx !trmx1 trmx0 mul_row_block !mulmx1 mulmx0 add0r; congr row_mx.
  apply: mx11_eq; rewrite linearN /= trmx_mul Mi_sym mulmxN mulmxA [LHS]mxE [RHS]mxE [x%:M 0 0]mxE [X in _ + X]mxE !mulr1n //.
rewrite border_inv !mulmxA e -mulmxA -[Ui]trmxK -trmx_mul e mul_row_block !mulmx0 addr0 add0r.
rewrite tr_row_mx mul_row_col tr_scalar_mx -!scalar_mxM !mxE mulr1n addrC; congr (_ + _).
by rewrite mulrAC.
Qed.
End Border.

(** In terms of kernel values *)
Section Values.
Variable F : realFieldType.
Variables (n : nat) (K K' : nat -> nat -> F) (c : nat -> F) (v r : F) (rs ys : seq F) (y : F).
Hypothesis K00 : K' 0%N 0%N = v.
Hypothesis K0j : forall j, (j < n)%N -> K' 0%N j.+1 = c j.
Hypothesis Ki0 : forall j, (j < n)%N -> K' j.+1 0%N = c j.
Hypothesis Kij : forall i j, (i < n)%N -> (j < n)%N -> K' i.+1 j.+1 = K i j.
Let C : 'rV[F]_n := \row_(j < n) c j.
Let M := dcov n K rs.
Hypothesis pM : pdmx M.
Hypothesis vr : 0 < gpv n K v c rs + r.

Lemma dcov_border : dcov n.+1 K' (r :: rs) = bordered M C (v + r).
Proof.
apply/matrixP=> i j; rewrite [RHS]mxE.
case: (@splitP 1 n i) => i' ei; rewrite ?[in RHS]mxE; case: (@splitP 1 n j) => j' ej; rewrite ?[in RHS]mxE.
- have -> : i = ord0 by apply: val_inj; move: ei; rewrite (ord1 i').
  have -> : j = ord0 by apply: val_inj; move: ej; rewrite (ord1 j').
  by rewrite (ord1 i') (ord1 j') !mxE K00 !mulr1n.
- have -> : i = ord0 by apply: val_inj; move: ei; rewrite (ord1 i').
  have ne : (ord0 == j) = false by apply/negbTE/eqP=> e; move: ej; rewrite -e.
  by rewrite !mxE ne mulr0n addr0 ej K0j.
- have -> : j = ord0 by apply: val_inj; move: ej; rewrite (ord1 j').
  have ne : (i == ord0) = false by apply/negbTE/eqP=> e; move: ei; rewrite e.
  by rewrite !mxE ne mulr0n addr0 ei Ki0.
- have e : (i == j) = (i' == j').
    apply/eqP/eqP=> e; apply: val_inj.
      by move: (congr1 (@nat_of_ord _) e); rewrite ei ej => -[].
    by apply: etrans ei _; rewrite e; apply: esym.
  by rewrite !mxE e ei ej Kij.
Qed.
Lemma schur_gpv : schur M C (v + r) = gpv n K v c rs + r.
Proof. by rewrite /schur /gpv /post_cov -/M -/C !mxE mulr1n addrAC. Qed.
Let uM := pd_unit pM.
Let sM : M^T = M := pM.1.
Let s0 : schur M C (v + r) != 0.
Proof. by rewrite schur_gpv gt_eqF. Qed.

Lemma gpd_border : gpd n.+1 K' (r :: rs) = (gpv n K v c rs + r) * gpd n K rs.
Proof. by rewrite /gpd dcov_border border_det // schur_gpv. Qed.

Lemma col_row : (col_of n.+1 (y :: ys))^T = row_mx y%:M (col_of n ys)^T.
Proof.
apply/rowP=> i; rewrite [RHS]mxE; case: (@splitP 1 n i) => i' ei; rewrite !mxE ei //.
by rewrite (ord1 i') /= mulr1n.
Qed.
Lemma row_row (c' : nat -> F) : \row_(j < n.+1) c' j = row_mx (c' 0%N)%:M (\row_(j < n) c' j.+1).
Proof.
apply/rowP=> i; rewrite [RHS]mxE; case: (@splitP 1 n i) => i' ei; rewrite !mxE ei //.
by rewrite (ord1 i') /= mulr1n.
Qed.
Lemma mxtr_00 (A : 'M[F]_1) : A^T 0 0 = A 0 0. Proof. by rewrite mxE. Qed.

Lemma gpm_flip : ((col_of n ys)^T *m invmx M *m C^T) 0 0 = gpm n K c rs ys.
Proof. by rewrite -mxtr_00 !trmx_mul !trmxK (inv_sym sM) mulmxA. Qed.

Lemma gpq_border : gpq n.+1 K' (r :: rs) (y :: ys)
  = gpq n K rs ys + (y - gpm n K c rs ys) ^+ 2 / (gpv n K v c rs + r).
Proof.
rewrite {1}/gpq /post_mean dcov_border -[col_of n.+1 _ in X in _ *m X]trmxK col_row border_form // schur_gpv.
by rewrite gpm_flip trmxK expr2.
Qed.

(** The covariance of f(z) and f(x) given the first n data. *)
Definition pcov (w : F) (cz : nat -> F) : F := w - ((\row_(j < n) cz j) *m invmx M *m C^T) 0 0.

Variables (cz : nat -> F) (vz : F).
Lemma gpm_border : gpm n.+1 K' cz (r :: rs) (y :: ys)
  = gpm n K (fun j => cz j.+1) rs ys
    + pcov (cz 0%N) (fun j => cz j.+1) * (y - gpm n K c rs ys) / (gpv n K v c rs + r).
Proof.
rewrite {1}/gpm /post_mean dcov_border -[col_of n.+1 _]trmxK col_row row_row border_form // schur_gpv.
by rewrite gpm_flip trmxK.
Qed.
Lemma gpv_border : gpv n.+1 K' vz cz (r :: rs)
  = gpv n K vz (fun j => cz j.+1) rs
    - pcov (cz 0%N) (fun j => cz j.+1) ^+ 2 / (gpv n K v c rs + r).
Proof.
rewrite {1 2}/gpv /post_cov dcov_border [LHS]mxE [X in _ + X]mxE row_row border_form // schur_gpv.
by rewrite [in RHS]mxE [X in _ = _ + X - _]mxE opprD addrA expr2.
Qed.
Lemma gpv_border_le : gpv n.+1 K' vz cz (r :: rs) <= gpv n K vz (fun j => cz j.+1) rs.
Proof. by rewrite gpv_border ler_subl_addr ler_addl divr_ge0 ?sqr_ge0 // ltW. Qed.
End Values.
