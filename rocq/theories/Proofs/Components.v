(** Component predictions. *)
From Coq Require Import Reals String Lra.
From mathcomp Require Import all_ssreflect all_algebra.
From mathcomp.real_closed Require Import mxtens.
From Verif.Prelude Require Import Rstruct Psd Zmod.
From Verif.Spec Require Import Gp Markov Lti WfKernel LogNormal Data Components.
From Verif.Model Require Import Array Jax Ssm Sequential BaseKernels IntegratedKernels Kernel Integrated
  Frontend SequentialOps Gp.
From Verif.Proofs Require Import StateCov SeqExact SeqIdeal SeqMore SeqGp SeqLinear GpExt Lti KernelLti
  Evaluate KernelThms Names Rename UniqueNames Fit FitAny FitThms.
Set Implicit Arguments.
Unset Strict Implicit.
Unset Printing Implicit Defensive.
Import Order.TTheory GRing.Theory Num.Theory.

(** ** Any linear form of the smoothed and predicted states *)
Section Rows.
Variables (F : realFieldType) (k : ssm F).
Hypothesis vk : valid_ssm k.
Variables (t y R : seq F).
Hypothesis tsort : sorted <=%R t.
Hypothesis Rpos : forall i, (i < size t)%N -> (0 < R`_i)%R.
Let N := size t.
Hypothesis N0 : (0 < N)%N.
Variable b : bool.
Let c := seq_condition k t y R b.
Variable h : 'M[F]_(1, sdim k).

Definition row_mean s : F :=
  gpm N (fun i j => obs_cov k t`_i t`_j)
      (fun j => (h *m state_cov k s t`_j *m (sobs k t`_j)^T) 0 0)%R R y.
Definition row_var s : F :=
  gpv N (fun i j => obs_cov k t`_i t`_j) ((h *m spinf k *m h^T) 0 0)%R
      (fun j => (h *m state_cov k s t`_j *m (sobs k t`_j)^T) 0 0)%R R.

Lemma row_meanE s :
  ((h *m post_mean (Cst k t s) (Sig k t R) (col_of N y)) 0 0)%R = row_mean s.
Proof. by rewrite proj_post_mean row_Cst. Qed.
Lemma row_varE s :
  ((h *m post_cov (spinf k) (Cst k t s) (Sig k t R) *m h^T) 0 0)%R = row_var s.
Proof.
rewrite proj_post_cov row_Cst /row_var /gpv; congr (post_cov _ _ _ 0%R 0%R).
by apply/matrixP=> i j; rewrite !ord1 [RHS]mxE eqxx mulr1n.
Qed.

Lemma smooth_row_mean i : (i < N)%N -> ((h *m nth 0 (c_ms c) i) 0 0)%R = row_mean t`_i.
Proof.
by move=> hi; rewrite nth_sh1 // (seq_smooth_exact vk y tsort Rpos hi) /= row_meanE.
Qed.
Lemma smooth_row_var i : (i < N)%N -> ((h *m nth 0 (c_Ps c) i *m h^T) 0 0)%R = row_var t`_i.
Proof.
by move=> hi; rewrite nth_sh2 // (seq_smooth_exact vk y tsort Rpos hi) /= row_varE.
Qed.
Lemma point_row_mean s : ((h *m (@pr_point _ k c s).1) 0 0)%R = row_mean s.
Proof. by rewrite (pr_point_exact vk y tsort Rpos b s N0) /= row_meanE. Qed.
Lemma point_row_var s : ((h *m (@pr_point _ k c s).2 *m h^T) 0 0)%R = row_var s.
Proof. by rewrite (pr_point_exact vk y tsort Rpos b s N0) /= row_varE. Qed.
End Rows.

(** ** Observation rows of components *)
Definition no_product (k : kernel) : Prop := forall k', List.In k' (summands k) -> ~ is_product k'.

Lemma no_product_sum k1 k2 : no_product (Sum k1 k2) -> no_product k1 /\ no_product k2.
Proof. by move=> /In_mem. Qed.

Lemma comp_absent k X c : no_product k -> ~ List.In c (summand_names k) ->
  observation_model k X (Some c) = 0%R.
Proof.
have leaf s (m : model) : ~ (s = c \/ False) ->
    ((if (s =? c)%string then 1 else 0) *: mH m X = 0 :> 'M[R]_(1, md m))%R.
  by move=> h; case: (streqP s c) => [e|_]; [case: h; left | rewrite scale0r].
elim: k; try by move=> *; apply: leaf.
- move=> k1 IH1 k2 IH2 /no_product_sum[p1 p2]; rewrite /summand_names /= map_cat => h.
  rewrite IH1 ?IH2 ?row_mx0 // => h'; apply: h; apply: List.in_or_app; by [left | right].
- by move=> k1 _ k2 _ h; case: (h (Product k1 k2)); [left |].
Qed.

Lemma distinct_cat s1 s2 : distinct (s1 ++ s2) -> [/\ distinct s1, distinct s2 &
  (forall n, List.In n s1 -> ~ List.In n s2)].
Proof.
elim: s1 => [|x s1 IH] /=; first by split.
case=> h1 /IH[d1 d2 d3]; split=> //.
  by split=> // h; apply: h1; apply: List.in_or_app; left.
by move=> n [<- h|]; [apply: h1; apply: List.in_or_app; right | apply: d3].
Qed.

Section Blocks.
Variables (F : realFieldType) (d1 d2 : nat).
Lemma block_trans (P1 A1 : 'M[F]_d1) (P2 A2 : 'M[F]_d2) :
  (block_mx P1 0 0 P2 *m (block_mx A1 0 0 A2)^T = block_mx (P1 *m A1^T) 0 0 (P2 *m A2^T))%R.
Proof. by rewrite tr_block_mx !trmx0 mulmx_block !mulmx0 !mul0mx !addr0 !add0r. Qed.
Lemma block_prod (P1 A1 : 'M[F]_d1) (P2 A2 : 'M[F]_d2) :
  (block_mx P1 0 0 P2 *m block_mx A1 0 0 A2 = block_mx (P1 *m A1) 0 0 (P2 *m A2))%R.
Proof. by rewrite mulmx_block !mulmx0 !mul0mx !addr0 !add0r. Qed.
Lemma block_forms (h1 h1' : 'M[F]_(1, d1)) (h2 h2' : 'M[F]_(1, d2)) S1 S2 :
  ((row_mx h1 h2 *m block_mx S1 0 0 S2 *m (row_mx h1' h2')^T) 0 0
   = (h1 *m S1 *m h1'^T) 0 0 + (h2 *m S2 *m h2'^T) 0 0)%R.
Proof. by rewrite mul_row_block !mulmx0 addr0 add0r tr_row_mx mul_row_col [LHS]mxE. Qed.
Lemma row_suml n (f : 'I_n -> 'M[F]_(1, d1)) :
  (\sum_i row_mx (f i) (0 : 'M_(1, d2)) = row_mx (\sum_i f i) 0)%R.
Proof.
apply: (big_ind2 (fun A B => A = row_mx B 0)%R) => // [|A B A' B' -> ->]; first by rewrite row_mx0.
by rewrite add_row_mx addr0.
Qed.
Lemma row_sumr n (f : 'I_n -> 'M[F]_(1, d2)) :
  (\sum_i row_mx (0 : 'M_(1, d1)) (f i) = row_mx 0 (\sum_i f i))%R.
Proof.
apply: (big_ind2 (fun A B => A = row_mx 0 B)%R) => // [|A B A' B' -> ->]; first by rewrite row_mx0.
by rewrite add_row_mx addr0.
Qed.
End Blocks.

Lemma state_cov_sum m1 m2 s u :
  state_cov (to_ssm (ideal (sum_model m1 m2))) s u
  = block_mx (state_cov (to_ssm (ideal m1)) s u) 0%R 0%R (state_cov (to_ssm (ideal m2)) s u).
Proof.
rewrite /state_cov; case: (s < u)%R; [exact: block_trans | exact: block_prod].
Qed.

(** Covariance of a linear form h of the state at s with a linear form h' of it at u. *)
Definition row_cov (m : model) (h h' : 'M[R]_(1, md m)) (s u : R) : R :=
  ((h *m state_cov (to_ssm (ideal m)) s u *m h'^T) 0 0)%R.

Lemma row_cov_sum m1 m2 h1 h2 h1' h2' s u :
  @row_cov (sum_model m1 m2) (row_mx h1 h2) (row_mx h1' h2') s u
  = (row_cov h1 h1' s u + row_cov h2 h2' s u)%R.
Proof.
by rewrite /row_cov state_cov_sum; apply: block_forms.
Qed.

Lemma row_cov0l m h' s u : @row_cov m 0%R h' s u = 0%R.
Proof. by rewrite /row_cov !mul0mx mxE. Qed.

Lemma In_nth (T : Type) (x0 : T) s i : (i < size s)%N -> List.In (nth x0 s i) s.
Proof. by elim: s i => //= x s IH [|i] hi; [left | right; apply: IH]. Qed.

Section Comp.
Variable k0 : kernel.
Let nm k i : string := kname (nth k0 (summands k) i).

Lemma nm_In k i : (i < size (summands k))%N -> List.In (nm k i) (summand_names k).
Proof. by move=> hi; apply: (List.in_map kname); apply: In_nth. Qed.

(** The row of component i only sees component i. *)
Lemma comp_cov k i comp X1 X2 s u : no_product k -> distinct (summand_names k) ->
  (i < size (summands k))%N -> comp = None \/ comp = Some (nm k i) ->
  let ki := nth k0 (summands k) i in
  row_cov (observation_model k X1 (Some (nm k i))) (observation_model k X2 comp) s u
  = row_cov (mH (denote ki) X1) (mH (denote ki) X2) s u.
Proof.
have leaf n (m : model) : comp = None \/ comp = Some n ->
    row_cov ((if (n =? n)%string then 1 else 0) *: mH m X1)%R
            ((if match comp with None => true | Some c => (n =? c)%string end then 1 else 0) *: mH m X2)%R s u
    = row_cov (mH m X1) (mH m X2) s u.
  by case=> ->; rewrite !String.eqb_refl !scale1r.
elim: k i; try by (intros; match goal with
  H : is_true (?i < _)%N |- _ => destruct i; [apply: leaf; assumption | discriminate H] end).
- move=> k1 IH1 k2 IH2 i /no_product_sum[p1 p2].
  rewrite /summand_names [summands _]/= map_cat size_cat => /distinct_cat[d1 d2 d3].
  have e : nm (Sum k1 k2) i = if (i < size (summands k1))%N then nm k1 i else nm k2 (i - size (summands k1)).
    by rewrite /nm [summands _]/= nth_cat; case: ifP.
  move=> hi; rewrite e nth_cat; case: ifP => h1 hc /=.
    rewrite (comp_absent (k := k2)) //; last by apply: d3; apply: nm_In.
    rewrite row_cov_sum row_cov0l addr0; exact: IH1.
  have h2 : (i - size (summands k1) < size (summands k2))%N by rewrite ltn_subLR // leqNgt h1.
  rewrite (comp_absent (k := k1)) //; last by move=> h; apply: (d3 _ h); apply: nm_In.
  rewrite row_cov_sum row_cov0l add0r; exact: IH2.
- by move=> k1 _ k2 _ i h; case: (h (Product k1 k2)); [left |].
Qed.

(** The rows of the components add up to the row of the sum. *)
Lemma comp_rows k X : no_product k -> distinct (summand_names k) ->
  (\sum_(i < size (summands k)) observation_model k X (Some (nm k i)) = observation_model k X None)%R.
Proof.
have leaf n (m : model) : ((if (n =? n)%string then 1 else 0) *: mH m X = 1 *: mH m X)%R.
  by rewrite String.eqb_refl.
elim: k; try by (intros; rewrite big_ord1; apply: leaf).
- move=> k1 IH1 k2 IH2 /no_product_sum[p1 p2].
  rewrite /summand_names [summands _]/= map_cat => /distinct_cat[d1 d2 d3].
  rewrite size_cat big_split_ord /= -IH1 // -IH2 //.
  rewrite (eq_bigr (fun i : 'I__ => row_mx (observation_model k1 X (Some (nm k1 i))) 0)%R) => [|i _]; last first.
    have -> : nm (Sum k1 k2) i = nm k1 i by rewrite /nm [summands _]/= nth_cat ltn_ord.
    by congr row_mx; apply: comp_absent => //; apply: d3; apply: nm_In.
  rewrite [X in (_ + X)%R](eq_bigr (fun i : 'I__ => row_mx 0 (observation_model k2 X (Some (nm k2 i))))%R)
     => [|i _]; last first.
    have -> : nm (Sum k1 k2) (size (summands k1) + i) = nm k2 i.
      by rewrite /nm [summands _]/= nth_cat ltnNge leq_addr addKn.
    by congr row_mx; apply: comp_absent => // h; apply: (d3 _ h); apply: nm_In.
  rewrite row_suml row_sumr.
  by rewrite add_row_mx addr0 add0r.
- by move=> k1 _ k2 _ h; case: (h (Product k1 k2)); [left |].
Qed.
End Comp.

(** ** Summands under renaming *)
Lemma summands_erase k : map denote (summands (erase k)) = map denote (summands k).
Proof.
elim: k => //=.
- by move=> a k IH s; rewrite denote_erase.
- by move=> k1 IH1 k2 IH2; rewrite !map_cat IH1 IH2.
- by move=> k1 IH1 k2 IH2; rewrite !denote_erase.
Qed.

Lemma unique_summands k k' : assign_unique_kernel_names k = inr k' ->
  map denote (summands k') = map denote (summands k).
Proof. by move=> /unique_erase e; rewrite -summands_erase e summands_erase. Qed.

Lemma unique_no_product' k k' : assign_unique_kernel_names k = inr k' -> no_product k -> no_product k'.
Proof. by move=> /unique_erase e h; apply/no_product_erase; rewrite e; apply/no_product_erase. Qed.

Lemma summand_wf k k' : wf_kernel k -> List.In k' (summands k) -> wf_kernel k'.
Proof.
elim: k; try by (intros; match goal with H : List.In _ _ |- _ => case: H => // <- end).
by move=> k1 IH1 k2 IH2 /= [w1 w2] /List.in_app_iff[]; [apply: IH1 | apply: IH2].
Qed.
Lemma summand_const k k' : const_obs k -> List.In k' (summands k) -> const_obs k'.
Proof.
elim: k; try by (intros; match goal with H : List.In _ _ |- _ => case: H => // <- end).
by move=> k1 IH1 k2 IH2 /= [w1 w2] /List.in_app_iff[]; [apply: IH1 | apply: IH2].
Qed.

(** The covariance function of a sum is the sum of those of the summands. *)
Lemma evaluate_summands k X1 X2 :
  evaluate (denote k) X1 X2 = (\sum_(m <- map denote (summands k)) evaluate m X1 X2)%R.
Proof.
elim: k; try by (intros; rewrite big_seq1).
by move=> k1 IH1 k2 IH2; rewrite [summands _]/= map_cat big_cat /= -IH1 -IH2; apply: evaluate_sum.
Qed.

Lemma comp_meanE (T : Type) (x0 : T) (ki kern : T -> T -> R) xs rs ys x : comp_mean x0 ki kern xs rs ys x
  = gpm (F := [realFieldType of R]) (size xs) (fun i j => kern (nth x0 xs i) (nth x0 xs j))
        (fun j => ki x (nth x0 xs j)) rs ys.
Proof. by []. Qed.
Lemma comp_varE (T : Type) (x0 : T) (ki kern : T -> T -> R) xs rs x : comp_var x0 ki kern xs rs x
  = gpv (F := [realFieldType of R]) (size xs) (fun i j => kern (nth x0 xs i) (nth x0 xs j)) (ki x x)
        (fun j => ki x (nth x0 xs j)) rs.
Proof. by []. Qed.

(** Posterior means are linear in the cross-covariance. *)
Section Linear.
Variables (X : Type) (x0 : X) (kern : X -> X -> R) (n : nat) (ks : nat -> X -> X -> R).
Hypothesis hk : forall x x', kern x x' = (\sum_(i < n) ks i x x')%R.

Lemma comp_mean_sum xs rs ys x :
  gp_mean x0 kern xs rs ys x = (\sum_(i < n) comp_mean x0 (ks i) kern xs rs ys x)%R.
Proof.
rewrite /gp_mean /comp_mean; move: (data_cov _ _) (col_of _ _) => S v.
rewrite /post_mean -mulmxA; set w := (invmx S *m v)%R.
rewrite [LHS]mxE.
rewrite (eq_bigr (fun i : 'I_n => \sum_j cross x0 (ks i) x xs ord0 j * w j ord0))%R => [|i _]; last first.
  by rewrite -mulmxA mxE.
rewrite exchange_big; apply: eq_bigr => j _ /=; rewrite -mulr_suml; congr (_ * _)%R.
by rewrite !mxE hk; apply: eq_bigr => i _; rewrite mxE.
Qed.
End Linear.

(** ** The front end *)
Lemma obs_row_cov m k0 k i comp X1 X2 s u : denote k = m -> no_product k -> distinct (summand_names k) ->
  (i < size (summands k))%N -> let n := kname (nth k0 (summands k) i) in
  comp = None \/ comp = Some n -> let ki := nth k0 (summands k) i in
  row_cov (m := m) (Frontend.obs_row (md m) k (Some n) X1) (Frontend.obs_row (md m) k comp X2) s u
  = row_cov (mH (denote ki) X1) (mH (denote ki) X2) s u.
Proof. by move=> <- np dk hi n hc; rewrite !obs_rowE; apply: comp_cov. Qed.

Section Front.
Variables (k : kernel) (X : coords) (diag : option farray) (mean : option (coord -> R)).
Variables (sa : solver_arg) (y : seq R) (kern : coord -> coord -> R) (kerns : nat -> coord -> coord -> R) (g : gp).
Hypothesis wf : wf_kernel k.
Hypothesis co : const_obs k.
Hypothesis np : no_product k.
Hypothesis hn : names_free k \/ distinct (summand_names k).
Hypothesis vd : valid_data X diag y.
Hypothesis kept : steps_kept k (times X).
Hypothesis hkern : forall X1 X2, kernel_evaluate false k X1 X2 = inr (kern X1 X2).
Let k0 := Constant 0 "".
Let n := size (summands k).
Hypothesis hkerns : forall i X1 X2, (i < n)%N ->
  kernel_evaluate false (nth k0 (summands k) i) X1 X2 = inr (kerns i X1 X2).
Hypothesis hsa : default_solver sa.
Hypothesis hg : gaussian_process smolgp_ops k X diag mean sa = inr g.
Let N := num_coords X.
Let nd := variances diag N.
Let xs := coord_list X.
Let m := denote k.
Let ks := to_ssm (ideal m).
Let t : seq R := times X.
Variables (lp : xreal) (c : gp).
Hypothesis hc : gp_condition smolgp_ops g y None None = inr (lp, c).

Lemma compE : N <> 1%N /\ exists k', [/\ assign_unique_kernel_names k = inr k',
  distinct (summand_names k') &
  c = @Gp k' X (fun _ => 0%R) (at_data_mean k X diag y k' None)
     (Some (Vector (at_data_var k X diag y k' None))) nd (Solver StateSpaceSolver k X nd)
     (Some (states_ k X diag y))].
Proof.
have [k' [e eg]] := gE wf vd hsa hg; move: hc; rewrite eg => h.
have [|_ n1 _ [k'' [e' ->]]] := any_condition_inr _ h.
  by rewrite (unique_integrated e) wf_not_integrated.
split=> //; exists k'; have dk := unique_names_distinct hn e; split=> //.
have := unique_distinct (k := k'); rewrite -summandsE => /(_ (distinct_uniq dk)).
by rewrite e' => -[<-].
Qed.

Lemma kerns_sum X1 X2 : kern X1 X2 = (\sum_(i < n) kerns i X1 X2)%R.
Proof.
have [_ ->] := kernel_evaluate_inr (hkern X1 X2).
rewrite evaluate_summands (big_nth (constant_model 0)) size_map big_mkord.
apply: eq_bigr => i _; rewrite (nth_map k0) //.
by have [_ ->] := kernel_evaluate_inr (hkerns X1 X2 (ltn_ord i)).
Qed.

Lemma components_add x :
  gp_mean (CT 0) kern xs nd y x = (\sum_(i < n) comp_mean (CT 0) (kerns i) kern xs nd y x)%R.
Proof. exact: comp_mean_sum kerns_sum _ _ _ _. Qed.

Section Component.
Variables (k' : kernel) (i : nat).
Hypothesis hk' : assign_unique_kernel_names k = inr k'.
Hypothesis dk' : distinct (summand_names k').
Hypothesis hi : (i < n)%N.
Let ni : string := nth EmptyString (summand_names k') i.
Let row x := Frontend.obs_row (md m) k' (Some ni) x.

Lemma size_k' : size (summands k') = n.
Proof. by have := congr1 size (unique_summands hk'); rewrite !size_map. Qed.

Lemma niE : ni = kname (nth k0 (summands k') i).
Proof. by rewrite /ni /summand_names (nth_map k0) // size_k'. Qed.

Lemma kiE : denote (nth k0 (summands k') i) = denote (nth k0 (summands k) i).
Proof.
have := congr1 (fun l => nth (constant_model 0) l i) (unique_summands hk').
by rewrite !(nth_map k0) // size_k'.
Qed.

Lemma kernsE X1 X2 : kerns i X1 X2
  = obs_cov (to_ssm (ideal (denote (nth k0 (summands k') i)))) (coord_to_sortable X1) (coord_to_sortable X2).
Proof.
have [_ ->] := kernel_evaluate_inr (hkerns X1 X2 hi); rewrite kiE.
have hin := In_nth k0 hi.
by apply: kernel_evaluate_obs_cov; [apply: summand_wf hin | apply: summand_const hin].
Qed.

Lemma row_kerns x x' comp : comp = None \/ comp = Some ni ->
  row_cov (m := m) (row x) (Frontend.obs_row (md m) k' comp x') (coord_to_sortable x) (coord_to_sortable x')
  = kerns i x x'.
Proof.
rewrite /row niE => h; rewrite (obs_row_cov (m := m) (k0 := k0)) ?size_k' //; last first.
- exact: unique_no_product' hk' np.
- exact: unique_denote.
rewrite kernsE /obs_cov /row_cov /= kiE.
have hin := In_nth k0 hi; have cc := summand_const co hin.
by congr ((_ *m _ *m (_)^T)%R _ _); apply: const_obsP.
Qed.

Lemma row_meanC x : row_mean (k := ks) t y nd (row x) (coord_to_sortable x)
  = comp_mean (CT 0) (kerns i) kern xs nd y x.
Proof.
rewrite /row_mean; have e : size t = size xs by rewrite size_coord_list.
rewrite e comp_meanE; apply: gpm_ext => [a b ha hb|b hb].
  by rewrite -!coord_nth -?size_coord_list // (kernE wf co hkern).
rewrite -(row_kerns x (nth (CT 0) xs b) (or_introl erefl)) obs_row_total; last exact: unique_denote.
rewrite /row_cov coord_nth -?size_coord_list // (obs_at (k := k)) //.
by rewrite coord_nth -?size_coord_list.
Qed.

Lemma row_varC x : row_var (k := ks) t nd (row x) (coord_to_sortable x)
  = comp_var (CT 0) (kerns i) kern xs nd x.
Proof.
rewrite /row_var; have e : size t = size xs by rewrite size_coord_list.
rewrite e comp_varE; apply: gpv_ext => [a b ha hb||b hb].
- by rewrite -!coord_nth -?size_coord_list // (kernE wf co hkern).
- rewrite -(row_kerns x x (or_intror erefl)) /row_cov.
  by rewrite (sc_refl (vks wf)).
rewrite -(row_kerns x (nth (CT 0) xs b) (or_introl erefl)) obs_row_total; last exact: unique_denote.
rewrite /row_cov coord_nth -?size_coord_list // (obs_at (k := k)) //.
by rewrite coord_nth -?size_coord_list.
Qed.
End Component.
End Front.
