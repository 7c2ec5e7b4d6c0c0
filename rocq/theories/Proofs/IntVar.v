(** Variances of integrated models: bounds, added exposures, leave one out. *)
From Coq Require Import Reals String Lra.
From mathcomp Require Import all_ssreflect all_algebra.
From Coquelicot Require Import Coquelicot.
From Verif.Prelude Require Import Rstruct Psd.
From Verif.Spec Require Import Gp WfKernel CovOf LogNormal Data IntCov WfIntegrated Exposures Smoothable TestTimes
  Transform IntTransform.
From Verif.Model Require Import Array Jax Ssm Sequential BaseKernels Kernel Integrated Frontend
  SequentialOps Gp.
From Verif.Proofs Require Import GpExt KernelProps KernelThms Evaluate Names Rename Fit FitAny FitThms FitRefute IntBook
  LagInt MeanPsd WindowCov WindowKernel IntGram IntExact FitInt IntThms FitIntCond IntCondThms IntPredThms
  Border DenseMore IntUnits.
Set Implicit Arguments.
Unset Strict Implicit.
Unset Printing Implicit Defensive.
Import Order.TTheory GRing.Theory Num.Theory.
Local Open Scope R_scope.

Lemma rsum_big n (f : nat -> R) : rsum n f = (\sum_(i < n) f i)%R.
Proof. by elim: n => [|n IH] /=; rewrite ?big_ord0 // big_ord_recr /= IH. Qed.

Lemma gram_quad (T : Type) (x0 : T) (K : T -> T -> R) xs (c : nat -> R) :
  qf (gram x0 K xs) (\col_i c i) =
  rsum (size xs) (fun i => c i * rsum (size xs) (fun j => c j * K (nth x0 xs i) (nth x0 xs j))).
Proof.
rewrite rsum_big /qf -mulmxA mxE; apply: eq_bigr => i _; rewrite !mxE; congr (_ * _)%R.
by rewrite rsum_big; apply: eq_bigr => j _; rewrite !mxE mulrC.
Qed.

Section Psd.
Variables (k b : kernel).
Hypothesis wf : wf_integrated k.
Hypothesis eb : base_kernel k = Some b.
Let kap r := covariance b (Rabs r).
Lemma base_points m (u c : nat -> R) :
  0 <= rsum m (fun i => c i * rsum m (fun j => c j * kap (u i - u j))).
Proof.
have [w d co _] := IntThms.base_documented wf eb.
have [_ h] := evaluate_gram_psd (mkseq (fun i => CT (u i)) m) w co.
have := h (\col_i c i)%R; rewrite gram_quad size_mkseq => /RleP; congr (_ <= _).
apply: rsum_ext => i hi; congr (_ * _); apply: rsum_ext => j hj; congr (_ * _).
by rewrite !nth_mkseq // evaluate_covariance.
Qed.
Lemma base_cont x : continuous kap x.
Proof. exact: (wc_cont (kernel_wincov wf eb)). Qed.
Lemma int_sym X Y : integrated_cov b X Y = integrated_cov b Y X.
Proof. by apply: mean_cov_sym; [exact: base_cont|move=> r; rewrite Rabs_Ropp]. Qed.
Lemma int_psd xs : psdmx (gram (CT 0) (integrated_cov b) xs).
Proof.
split; first by apply/matrixP => i j; rewrite !mxE int_sym.
move=> x; pose c i := if insub i is Some o then x o 0%R else 0%R : R.
have -> : x = (\col_i c i)%R by apply/colP => i; rewrite mxE /c valK.
by rewrite gram_quad; apply/RleP; exact: (mean_quad base_cont base_points).
Qed.
End Psd.

Lemma schur_ge0 (F : realFieldType) n (M : 'M[F]_n) (c : 'rV[F]_n) (a : F) : M \in unitmx ->
  psdmx (bordered M c a) -> (0 <= schur M c a)%R.
Proof.
move=> uM [_ /(_ (row_mx 1%:M (- (c *m invmx M)))^T)%R].
rewrite /qf trmxK /bordered mul_row_block !mul1mx !mulNmx -[(c *m _ *m M)%R]mulmxA mulVmx //.
rewrite mulmx1 addrN tr_row_mx mul_row_col mul0mx addr0 trmx1 mulmx1 mxE [((_)%:M : 'M_1)%R _ _]mxE mulr1n mxE.
by [].
Qed.

(** Posterior variances from a positive semidefinite covariance *)
Section Bounds.
Variables (T : Type) (x0 : T) (kern : T -> T -> R).
Hypothesis ksym : forall a b, kern a b = kern b a.
Hypothesis psd : forall l, psdmx (gram x0 kern l).
Variables (xs : seq T) (d : seq R) (x : T).
Hypothesis dpos : forall i, (i < size xs)%N -> 0 < nth 0 d i.
Let K i j := kern (nth x0 xs i) (nth x0 xs j).
Let K' i j := kern (nth x0 (x :: xs) i) (nth x0 (x :: xs) j).
Let c j := kern x (nth x0 xs j).
Let M := @dcov [realFieldType of R] (size xs) K d.
Let pM : pdmx M. Proof. by apply: pd_data. Qed.
Let C : 'rV[R]_(size xs) := (\row_(j < size xs) c j)%R.
Lemma var_ge0 : 0 <= gp_var x0 kern xs d x.
Proof.
apply/RleP; rewrite gp_varE.
have pB : psdmx (@dcov [realFieldType of R] (size xs).+1 K' (0 :: d)%R).
  apply: psdD; first exact: (psd (x :: xs)).
  split=> [|z]; first by rewrite tr_diag_mx.
  rewrite /qf -mulmxA mxE; apply: sumr_ge0 => i _; rewrite mul_diag_mx !mxE mulrCA -expr2.
  apply: mulr_ge0; last exact: sqr_ge0.
  by case: i => [[|i] hi] //=; apply: ltW; apply/RltP; exact: dpos.
move: pB; rewrite (@dcov_border [realFieldType of R] (size xs) K K' c (kern x x) 0%R d) //; last by move=> j _; rewrite /K' /= ksym.
move=> /(schur_ge0 (pd_unit pM)).
by rewrite (@schur_gpv [realFieldType of R]) addr0.
Qed.
Lemma var_le : gp_var x0 kern xs d x <= kern x x.
Proof.
apply/RleP; rewrite gp_varE /gpv /post_cov -/(c _) -/M -/C mxE [((_)%:M : 'M_1)%R _ _]mxE mulr1n mxE.
rewrite ler_subl_addr ler_addl.
have [_ h] := pd_psd (pd_inv pM); by have := h (C^T)%R; rewrite /qf trmxK.
Qed.
End Bounds.

Section Of.
Variables (k b : kernel) (X : coords) (diag : option farray) (y : seq R) (g : gp).
Hypothesis h : int_gp_of k b X diag y g.
Let N := num_coords X. Let xs := coord_list X. Let d := variances diag N.
Let kern := integrated_cov b.
Lemma io_sym x x' : kern x x' = kern x' x. Proof. by case: h => wf eb _ _ _; exact: int_sym wf eb x x'. Qed.
Lemma io_psd l : psdmx (gram (CT 0) kern l). Proof. by case: h => wf eb _ _ _; exact: int_psd wf eb l. Qed.
Lemma io_pos i : (i < size xs)%N -> 0 < nth 0 d i.
Proof. by rewrite size_coord_list; case: h => _ _ ve _ _; exact: (ve_pos ve). Qed.
Lemma io_var x : 0 <= gp_var (CT 0) kern xs d x <= kern x x.
Proof. by split; [apply: var_ge0|apply: var_le] => //; [exact: io_sym|exact: io_psd|exact: io_pos|exact: io_psd|exact: io_pos]. Qed.
Lemma point_var u : kern (CT u) (CT u) = covariance b 0.
Proof.
rewrite /kern /integrated_cov mean_cov_PP; try by move=> /=; lra.
by rewrite Rminus_diag_eq // Rabs_R0.
Qed.
Lemma var_bounds lp c : smooth_of k X -> gp_condition smolgp_ops g y None None = inr (lp, c) ->
  (exists va, [/\ g_var c = Some (Vector va), size va = N &
     forall i, (i < N)%N -> 0 <= nth 0 va i <= kern (exposure X i) (exposure X i)]) /\
  forall ts, int_tests_kept k X ts -> exists mu va, [/\ predicts c (CArray ts) mu va, size va = size ts &
     forall i, (i < size ts)%N -> 0 <= nth 0 va i <= covariance b 0].
Proof.
move=> so /(io_cond h so)[_ _ -> hp]; split.
  eexists; split; first reflexivity; first by rewrite size_map size_coord_list.
  by move=> i hi; rewrite (nth_map (CT 0)) ?size_coord_list //; exact: io_var.
move=> ts kt; do 2!eexists; split; first exact: hp kt; first by rewrite size_map.
by move=> i hi; rewrite (nth_map 0) // -(point_var (nth 0 ts i)); exact: io_var.
Qed.
End Of.

(** One exposure removed *)
Section Without.
Variables (k b : kernel) (t dl d y : seq R) (inst : seq nat) (p : nat) (g g' : gp).
Let X := CTriple t dl inst.
Let X' := CTriple (without p t) (without p dl) (without p inst).
Hypothesis hp : (p < size t)%N.
Hypothesis sd : size d = size t.
Hypothesis h : int_gp_of k b X (Some (Vector d)) y g.
Hypothesis h' : int_gp_of k b X' (Some (Vector (without p d))) (without p y) g'.
Let kern := integrated_cov b.
Let xs := coord_list X.
Let sizes : size dl = size t /\ size inst = size t. Proof. by case: h => _ _ /ve_triple. Qed.
Let sx : size xs = size t. Proof. by rewrite size_mkseq. Qed.
Let px : (p < size xs)%N. Proof. by rewrite sx. Qed.
Let sw (T : Type) (s : seq T) : size s = size t -> size (without p s) = (size t).-1.
Proof. by rewrite -sx => e; apply: size_without. Qed.
Let xsE : coord_list X' = without p xs.
Proof.
have [e1 e2] := sizes; have s1 := sw e1; have s2 := sw e2; have s3 := @sw _ t (erefl _); have s4 := sw sx.
apply: (@eq_from_nth _ (CT 0)); first by rewrite size_mkseq s3 s4.
move=> i; rewrite size_mkseq s3 => hi; rewrite nth_mkseq ?s3 //.
have n (T : Type) (z : T) (s : seq T) : size s = size t ->
    nth z (without p s) i = nth z s (if (i < p)%N then i else i.+1).
  by move=> e; have [|] := @nth_without p _ z s i; rewrite // e leqNgt hp.
rewrite !n // nth_mkseq //; move: hi; case: (size t) hp => // q _ /=.
by case: ifP => // _ h1; apply: ltnW.
Qed.
Let nE : num_coords X = size t. Proof. by []. Qed.
Let nE' : num_coords X' = (size t).-1. Proof. by rewrite /num_coords /= sw. Qed.
Let vE : variances (Some (Vector d)) (num_coords X) = d. Proof. by rewrite nE varsE. Qed.
Let vE' : variances (Some (Vector (without p d))) (num_coords X') = without p d.
Proof. by rewrite nE' varsE // sw. Qed.
Let pos i : (i < size xs)%N -> 0 < nth 0 d i.
Proof. by move=> hi; have := io_pos h hi; rewrite vE. Qed.
Let v0 x : 0 <= gp_var (CT 0) kern (without p xs) (without p d) x.
Proof. by have [] := io_var h' x; rewrite vE' xsE. Qed.
Let sy : size y = size xs. Proof. by rewrite sx; case: h => _ _ /ve_y. Qed.

Lemma wo_int_var lp c lp' c' ts : smooth_of k X -> smooth_of k X' ->
  gp_condition smolgp_ops g y None None = inr (lp, c) ->
  gp_condition smolgp_ops g' (without p y) None None = inr (lp', c') ->
  int_tests_kept k X ts -> int_tests_kept k X' ts ->
  exists mu va mu' va', [/\ predicts c (CArray ts) mu va, predicts c' (CArray ts) mu' va',
    size va = size ts, size va' = size ts & forall i, (i < size ts)%N -> nth 0 va i <= nth 0 va' i].
Proof.
move=> so so' /(io_cond h so)[_ _ _ hc] /(io_cond h' so')[_ _ _ hc'] kt kt'.
do 4!eexists; split; [exact: hc kt|exact: hc' kt'|by rewrite size_map|by rewrite size_map|].
move=> i hi; rewrite !(nth_map 0) // vE vE' xsE.
apply: var_at => //; [exact: (io_sym h)|by rewrite sx|exact: (io_psd h)].
Qed.

Lemma wo_int_log lp c : nth 0 dl p = 0 -> smooth_of k X' ->
  gp_condition smolgp_ops g' (without p y) None None = inr (lp, c) ->
  int_tests_kept k X' [:: nth 0 t p] ->
  exists m s l, predicts c (CArray [:: nth 0 t p]) [:: m] [:: s] /\ 0 <= s /\ lp = Fin l /\
    gp_log_probability smolgp_ops g y = inr (Fin (l + log_normal1 (nth 0 y p) m (s + nth 0 d p))).
Proof.
move=> l0 so' /(io_cond h' so')[-> _ _ hc] /hc; rewrite vE' xsE /= => hq.
do 3!eexists; split; first exact: hq; split; first exact: v0.
split; first by [].
rewrite (io_log h) vE (@log_normal_at _ (CT 0) kern (io_sym h) xs d y p px _ sy (io_psd h) pos); first last.
- by have := io_det h'; rewrite vE' xsE.
- exact: v0.
- by rewrite sx.
have ex : nth (CT 0) xs p = CX (nth 0 t p) 0 (nth 0%N inst p) by rewrite nth_mkseq // l0.
have ek x : kern (nth (CT 0) xs p) x = kern (CT (nth 0 t p)) x by rewrite ex.
have ek' : kern (nth (CT 0) xs p) (nth (CT 0) xs p) = kern (CT (nth 0 t p)) (CT (nth 0 t p)).
  have ks : forall x x', kern x x' = kern x' x := io_sym h.
  by rewrite ek ks ek.
congr (inr (Fin (_ + log_normal1 _ _ (_ + _)))).
- by rewrite !gp_meanE; apply: gpm_ext => // j hj; exact: ek.
- by rewrite !gp_varE; apply: gpv_ext => // j hj; exact: ek.
Qed.
End Without.
