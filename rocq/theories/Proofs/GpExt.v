(** Dense GP formulas depend on the kernel values at the data only; permuting the
    data. *)
From mathcomp Require Import all_ssreflect all_algebra all_fingroup.
From Verif.Prelude Require Import Psd Zmod.
From Verif.Spec Require Import Gp.
Set Implicit Arguments.
Unset Strict Implicit.
Unset Printing Implicit Defensive.
Import Order.TTheory GRing.Theory Num.Theory.
Local Open Scope ring_scope.

Section Ext.
Variable F : realFieldType.

(** The formulas in terms of the values K i j = k(x_i, x_j), c j = k(x, x_j). *)
Definition dcov n (K : nat -> nat -> F) (rs : seq F) : 'M[F]_n :=
  data_cov (\matrix_(i, j) K i j) (row_of n rs).
Definition gpm n K (c : nat -> F) rs ys : F :=
  post_mean (\row_(j < n) c j) (dcov n K rs) (col_of n ys) 0 0.
Definition gpv n K (v : F) (c : nat -> F) rs : F :=
  post_cov v%:M (\row_(j < n) c j) (dcov n K rs) 0 0.
Definition gpq n K rs ys : F :=
  post_mean (col_of n ys)^T (dcov n K rs) (col_of n ys) 0 0.
Definition gpd n K rs : F := \det (dcov n K rs).

Lemma dcov_ext n K K' rs : (forall i j, (i < n)%N -> (j < n)%N -> K i j = K' i j) ->
  dcov n K rs = dcov n K' rs.
Proof. by move=> h; congr (_ + _); apply/matrixP => i j; rewrite !mxE h. Qed.
Lemma row_ext n (c c' : nat -> F) : (forall j, (j < n)%N -> c j = c' j) ->
  \row_(j < n) c j = \row_(j < n) c' j.
Proof. by move=> h; apply/matrixP => i j; rewrite !mxE h. Qed.

Lemma gpm_ext n K K' c c' rs ys :
  (forall i j, (i < n)%N -> (j < n)%N -> K i j = K' i j) ->
  (forall j, (j < n)%N -> c j = c' j) -> gpm n K c rs ys = gpm n K' c' rs ys.
Proof. by move=> h1 h2; rewrite /gpm (dcov_ext _ h1) (row_ext h2). Qed.
Lemma gpv_ext n K K' v v' c c' rs :
  (forall i j, (i < n)%N -> (j < n)%N -> K i j = K' i j) -> v = v' ->
  (forall j, (j < n)%N -> c j = c' j) -> gpv n K v c rs = gpv n K' v' c' rs.
Proof. by move=> h1 -> h2; rewrite /gpv (dcov_ext _ h1) (row_ext h2). Qed.
Lemma gpq_ext n K K' rs ys :
  (forall i j, (i < n)%N -> (j < n)%N -> K i j = K' i j) -> gpq n K rs ys = gpq n K' rs ys.
Proof. by move=> h1; rewrite /gpq (dcov_ext _ h1). Qed.
Lemma gpd_ext n K K' rs :
  (forall i j, (i < n)%N -> (j < n)%N -> K i j = K' i j) -> gpd n K rs = gpd n K' rs.
Proof. by move=> h1; rewrite /gpd (dcov_ext _ h1). Qed.

Section Forms.
Variables (X : Type) (x0 : X) (k : X -> X -> F) (xs : seq X) (rs ys : seq F).
Let K i j := k (nth x0 xs i) (nth x0 xs j).
Lemma gp_meanE x : gp_mean x0 k xs rs ys x = gpm (size xs) K (fun j => k x (nth x0 xs j)) rs ys.
Proof. by []. Qed.
Lemma gp_varE x : gp_var x0 k xs rs x = gpv (size xs) K (k x x) (fun j => k x (nth x0 xs j)) rs.
Proof. by []. Qed.
Lemma gp_quadE : gp_quad x0 k xs rs ys = gpq (size xs) K rs ys.
Proof. by []. Qed.
Lemma gp_detE : gp_det x0 k xs rs = gpd (size xs) K rs.
Proof. by []. Qed.
End Forms.

Section Map.
Variables (X Y : Type) (x0 : X) (y0 : Y) (f : X -> Y).
Variables (kx : X -> X -> F) (ky : Y -> Y -> F).
Hypothesis h : forall a b, kx a b = ky (f a) (f b).
Variables (xs : seq X) (rs ys : seq F).

Let hK i j : (i < size xs)%N -> (j < size xs)%N ->
  ky (nth y0 (map f xs) i) (nth y0 (map f xs) j) = kx (nth x0 xs i) (nth x0 xs j).
Proof. by move=> hi hj; rewrite h !(nth_map x0). Qed.

Lemma gp_mean_map x : gp_mean y0 ky (map f xs) rs ys (f x) = gp_mean x0 kx xs rs ys x.
Proof. by rewrite !gp_meanE size_map; apply: gpm_ext => // j hj; rewrite h (nth_map x0). Qed.
Lemma gp_var_map x : gp_var y0 ky (map f xs) rs (f x) = gp_var x0 kx xs rs x.
Proof. by rewrite !gp_varE size_map; apply: gpv_ext => // j hj; rewrite h (nth_map x0). Qed.
Lemma gp_quad_map : gp_quad y0 ky (map f xs) rs ys = gp_quad x0 kx xs rs ys.
Proof. by rewrite !gp_quadE size_map; apply: gpq_ext. Qed.
Lemma gp_det_map : gp_det y0 ky (map f xs) rs = gp_det x0 kx xs rs.
Proof. by rewrite !gp_detE size_map; apply: gpd_ext. Qed.
End Map.

(** Projection of a posterior. *)
Lemma proj_post_mean p q N (h : 'M[F]_(p, q)) (C : 'M[F]_(q, N)) Sg y :
  h *m post_mean C Sg y = post_mean (h *m C) Sg y.
Proof. by rewrite /post_mean !mulmxA. Qed.
Lemma proj_post_cov p q N (h : 'M[F]_(p, q)) P (C : 'M[F]_(q, N)) Sg :
  h *m post_cov P C Sg *m h^T = post_cov (h *m P *m h^T) (h *m C) Sg.
Proof. by rewrite /post_cov mulmxBr mulmxBl trmx_mul !mulmxA. Qed.

(** Permuting the data. *)
Section Perm.
Variables (n : nat) (s : 'S_n) (K K' : nat -> nat -> F) (c c' : nat -> F) (v : F).
Variables (rs rs' ys ys' : seq F).
Hypothesis hK : forall i j : 'I_n, K' i j = K (s i) (s j).
Hypothesis hc : forall j : 'I_n, c' j = c (s j).
Hypothesis hr : forall j : 'I_n, rs'`_j = rs`_(s j).
Hypothesis hy : forall j : 'I_n, ys'`_j = ys`_(s j).
Let Pm : 'M[F]_n := perm_mx s.

Lemma dcov_perm : dcov n K' rs' = Pm *m dcov n K rs *m Pm^T.
Proof.
rewrite /Pm tr_perm_mx -row_permE -col_permE; apply/matrixP => i j.
rewrite !mxE hK hr; congr (_ + _ *+ _).
by rewrite (inj_eq perm_inj).
Qed.
Lemma col_perm_ys : col_of n ys' = Pm *m col_of n ys.
Proof. by rewrite /Pm -row_permE; apply/matrixP => i j; rewrite !mxE hy. Qed.
Lemma row_perm_c : \row_(j < n) c' j = (\row_(j < n) c j) *m Pm^T.
Proof. by rewrite /Pm tr_perm_mx -col_permE; apply/matrixP => i j; rewrite !mxE hc. Qed.
Lemma PmPm : Pm^T *m Pm = 1%:M.
Proof. by rewrite /Pm tr_perm_mx -perm_mxM mulgV perm_mx1 || rewrite /Pm tr_perm_mx -perm_mxM mulVg perm_mx1. Qed.
Lemma PmPm' : Pm *m Pm^T = 1%:M.
Proof. exact: (mulmx1C PmPm). Qed.

Lemma dcov_unit : (dcov n K' rs' \in unitmx) = (dcov n K rs \in unitmx).
Proof.
rewrite dcov_perm !unitmx_mul unitmx_tr.
by rewrite /Pm unitmx_perm andbT.
Qed.

Lemma gpd_perm : gpd n K' rs' = gpd n K rs.
Proof.
rewrite /gpd dcov_perm !det_mulmx mulrC mulrA -det_mulmx.
by rewrite PmPm det1 mul1r.
Qed.

Hypothesis u : dcov n K rs \in unitmx.
Lemma inv_perm : invmx (dcov n K' rs') = Pm *m invmx (dcov n K rs) *m Pm^T.
Proof.
have u' : dcov n K' rs' \in unitmx by rewrite dcov_unit.
suff e : dcov n K' rs' *m (Pm *m invmx (dcov n K rs) *m Pm^T) = 1%:M.
  by have := congr1 (mulmx (invmx (dcov n K' rs'))) e; rewrite (mulKmx u') mulmx1.
rewrite dcov_perm -!mulmxA (mulmxA Pm^T Pm) PmPm mul1mx.
by rewrite (mulmxA (dcov n K rs)) mulmxV // mul1mx PmPm'.
Qed.

Lemma gpm_perm : gpm n K' c' rs' ys' = gpm n K c rs ys.
Proof.
rewrite /gpm /post_mean inv_perm row_perm_c col_perm_ys; congr (_ 0 0).
by rewrite -!mulmxA (mulmxA Pm^T Pm) PmPm mul1mx (mulmxA Pm^T Pm) PmPm mul1mx.
Qed.
Lemma gpq_perm : gpq n K' rs' ys' = gpq n K rs ys.
Proof.
rewrite /gpq /post_mean inv_perm col_perm_ys; congr (_ 0 0).
by rewrite trmx_mul -!mulmxA (mulmxA Pm^T Pm) PmPm mul1mx (mulmxA Pm^T Pm) PmPm mul1mx.
Qed.
Lemma gpv_perm : gpv n K' v c' rs' = gpv n K v c rs.
Proof.
rewrite /gpv /post_cov inv_perm row_perm_c; congr (fun_of_matrix _ 0 0); congr (_ - _).
by rewrite trmx_mul trmxK -!mulmxA (mulmxA Pm^T Pm) PmPm mul1mx (mulmxA Pm^T Pm) PmPm mul1mx.
Qed.
End Perm.
End Ext.
