(** Consequences of the exact integrated likelihood: the order of the exposures, the
    names of the instruments, exposures of length 0. *)
From Coq Require Import Reals String Lra.
From mathcomp Require Import all_ssreflect all_algebra.
From Verif.Prelude Require Import Rstruct Psd.
From Verif.Spec Require Import Gp WfKernel CovOf LogNormal Data IntCov WfIntegrated Exposures.
From Verif.Model Require Import Array Jax Ssm Sequential BaseKernels Kernel Integrated Frontend
  SequentialOps Gp.
From Verif.Proofs Require Import GpExt KernelThms Evaluate Names Rename Fit FitAny FitThms FitRefute IntBook LagInt
  WindowCov WindowKernel IntGram FitInt.
Set Implicit Arguments.
Unset Strict Implicit.
Unset Printing Implicit Defensive.
Import Order.TTheory GRing.Theory Num.Theory.

Section Thms.
Variables (k b : kernel) (diag : option farray) (y : seq R).
Hypothesis wf : wf_integrated k.
Hypothesis eb : base_kernel k = Some b.
Variables (mean : option (coord -> R)) (sa : solver_arg).
Hypothesis hsa : default_integrated_solver sa.

Lemma triple X : valid_exposures (instruments k) X diag y -> exists tm dl inst, X = CTriple tm dl inst.
Proof. by case: X => [t|t d|t d i] /ve_triple // _; exists t, d, i. Qed.

Lemma int_log_probability X g : valid_exposures (instruments k) X diag y -> exposure_steps_kept k X ->
  gaussian_process smolgp_ops k X diag mean sa = inr g ->
  gp_log_probability smolgp_ops g y
  = inr (Fin (log_normal (CT 0) (integrated_cov b) (coord_list X) (variances diag (num_coords X)) y)).
Proof.
move=> ve; have [tm [dl [inst e]]] := triple ve; subst X => sk.
exact: thm_int_log_probability.
Qed.

Lemma plain_steps X : plain_integrated k -> exposure_steps_kept k X.
Proof. by move=> p s s' _ _ _ _; apply: plain_kept. Qed.

Lemma int_defined X : valid_exposures (instruments k) X diag y -> names_ok k ->
  exists g, gaussian_process smolgp_ops k X diag mean sa = inr g.
Proof.
move=> ve; have [tm [dl [inst e]]] := triple ve; subst X => nk.
exact: (thm_int_defined (y := y)).
Qed.
End Thms.

(** ** Order *)
Section Order.
Variables (k b : kernel) (t dl d y : seq R) (inst idx : seq nat) (mean : option (coord -> R)).
Variables (sa : solver_arg) (g g' : gp).
Let X := CTriple t dl inst.
Let X' := CTriple (map (nth 0%R t) idx) (map (nth 0%R dl) idx) (map (nth 0%N inst) idx).
Let dg := Some (Vector d). Let dg' := Some (Vector (map (nth 0%R d) idx)).
Let y' := map (nth 0%R y) idx.
Hypothesis pidx : perm_eq idx (iota 0 (size t)).
Hypothesis wf : wf_integrated k.
Hypothesis eb : base_kernel k = Some b.
Hypothesis ve : valid_exposures (instruments k) X dg y.
Hypothesis sd : size d = size t.
Hypothesis sk : exposure_steps_kept k X.
Hypothesis hsa : default_integrated_solver sa.

Lemma or_sz : size idx = size t. Proof. by rewrite (perm_size pidx) size_iota. Qed.
Lemma or_lt i : (i < size idx)%N -> (nth 0%N idx i < size t)%N.
Proof. by move=> h; have := mem_nth 0%N h; rewrite (perm_mem pidx) mem_iota add0n. Qed.
Lemma or_exp i : (i < size t)%N -> exposure X' i = exposure X (nth 0%N idx i).
Proof.
rewrite -or_sz => h; rewrite fi_exposure ?size_map // fi_exposure ?or_lt //.
by rewrite !(nth_map 0%N).
Qed.
Lemma or_inv i : (i < size t)%N -> exists2 j, (j < size t)%N & nth 0%N idx j = i.
Proof.
move=> hi; have : i \in idx by rewrite (perm_mem pidx) mem_iota add0n.
by move=> h; exists (index i idx); rewrite ?nth_index // -or_sz index_mem.
Qed.
Lemma or_coords : coord_list X' = map (nth (CT 0) (coord_list X)) idx.
Proof.
apply: (@eq_from_nth _ (CT 0)); first by rewrite size_mkseq !size_map.
move=> i; rewrite size_mkseq size_map => hi; rewrite (nth_map 0%N) //.
by apply: or_exp; rewrite -or_sz.
Qed.
Lemma or_valid : valid_exposures (instruments k) X' dg' y'.
Proof.
have nE : num_coords X' = size t by rewrite /num_coords /= size_map or_sz.
have sy : size y = size t by apply: (ve_y ve).
have nd1 : variances dg (size t) = d by rewrite varsE.
have nd2 : variances dg' (size t) = map (nth 0%R d) idx by rewrite varsE // size_map or_sz.
split; rewrite ?nE.
- by rewrite /= !size_map.
- exact: (ve_N ve).
- by move=> i hi; rewrite or_exp //; apply: (ve_len ve); apply: or_lt; rewrite or_sz.
- by move=> i hi; rewrite or_exp //; apply: (ve_inst ve); apply: or_lt; rewrite or_sz.
- by move=> i j hi hj; rewrite !or_exp //; apply: (ve_sep ve); apply: or_lt; rewrite or_sz.
- by rewrite size_map or_sz.
- by rewrite nd2 size_map or_sz.
- move=> i hi; rewrite nd2 (nth_map 0%N) ?or_sz //.
  have hl : (nth 0%N idx i < size t)%N by apply: or_lt; rewrite or_sz.
  by have := ve_pos ve hl; rewrite nd1.
Qed.
Lemma or_bound s : boundary X' s <-> boundary X s.
Proof.
have nE : num_coords X' = size t by rewrite /num_coords /= size_map or_sz.
split; case=> i [hi h].
  rewrite nE in hi; exists (nth 0%N idx i); rewrite -or_exp //; split=> //.
  by apply: or_lt; rewrite or_sz.
have [j hj e] := or_inv hi; exists j; rewrite nE; split=> //.
by rewrite or_exp // e.
Qed.
Lemma or_steps : exposure_steps_kept k X'.
Proof.
move=> s s' /or_bound h1 /or_bound h2 h3 h4; apply: sk => // u /or_bound; exact: h4.
Qed.

Lemma or_log_normal : log_normal (CT 0) (integrated_cov b) (coord_list X') (variances dg' (num_coords X')) y'
  = log_normal (CT 0) (integrated_cov b) (coord_list X) (variances dg (num_coords X)) y.
Proof.
rewrite or_coords !varsE; last 2 first.
- by rewrite sd.
- by rewrite /num_coords /= !size_map.
apply: log_normal_perm; first by rewrite size_coord_list.
by have := fi_det_neq0 wf eb ve sk; rewrite varsE.
Qed.

Lemma int_order : gaussian_process smolgp_ops k X dg mean sa = inr g ->
  gaussian_process smolgp_ops k X' dg' mean sa = inr g' ->
  gp_log_probability smolgp_ops g' y' = gp_log_probability smolgp_ops g y.
Proof.
move=> hg hg'; rewrite (int_log_probability wf eb hsa ve sk hg).
rewrite (int_log_probability wf eb hsa or_valid or_steps hg').
by rewrite or_log_normal.
Qed.
End Order.

(** ** Names of instruments *)
Section Label.
Variables (k b : kernel) (t dl y : seq R) (inst : seq nat) (diag : option farray) (p : nat -> nat).
Variables (mean : option (coord -> R)) (sa : solver_arg) (g g' : gp).
Let X := CTriple t dl inst.
Let X' := CTriple t dl (map p inst).
Hypothesis pn : forall i, (i < instruments k)%N -> (p i < instruments k)%N.
Hypothesis pinj : forall i j, (i < instruments k)%N -> (j < instruments k)%N -> p i = p j -> i = j.
Hypothesis wf : wf_integrated k.
Hypothesis ve : valid_exposures (instruments k) X diag y.
Hypothesis sk : exposure_steps_kept k X.
Hypothesis hsa : default_integrated_solver sa.

Lemma la_exp i : (i < size t)%N -> [/\ begin (exposure X' i) = begin (exposure X i),
  finish (exposure X' i) = finish (exposure X i), len (exposure X' i) = len (exposure X i)
  & inst_of (exposure X' i) = p (inst_of (exposure X i))].
Proof.
move=> hi; rewrite !fi_exposure //; split=> //=; rewrite (nth_map 0%N) //.
by have [_ ->] := ve_triple ve.
Qed.
Lemma la_valid : valid_exposures (instruments k) X' diag y.
Proof.
split.
- by have [h1 h2] := ve_triple ve; rewrite /= size_map.
- exact: (ve_N ve).
- by move=> i hi; have [_ _ -> _] := la_exp hi; apply: (ve_len ve).
- by move=> i hi; have [_ _ _ ->] := la_exp hi; apply/pn/(ve_inst ve).
- move=> i j hi hj; have [-> -> -> ->] := la_exp hi; have [-> _ _ ->] := la_exp hj.
  move=> /pinj e; apply: (ve_sep ve) => //; apply: e; exact: (ve_inst ve).
- exact: (ve_y ve).
- exact: (ve_d ve).
- exact: (ve_pos ve).
Qed.
Lemma la_bound s : boundary X' s <-> boundary X s.
Proof. by split; case=> i [hi h]; exists i; split=> //; move: h; have [-> -> _ _] := la_exp hi. Qed.
Lemma la_steps : exposure_steps_kept k X'.
Proof. by move=> s s' /la_bound h1 /la_bound h2 h3 h4; apply: sk => // u /la_bound; exact: h4. Qed.


Lemma int_relabel : gaussian_process smolgp_ops k X diag mean sa = inr g ->
  gaussian_process smolgp_ops k X' diag mean sa = inr g' ->
  gp_log_probability smolgp_ops g' y = gp_log_probability smolgp_ops g y.
Proof.
have [b' eb'] := wf_integrated_base wf.
move=> hg hg'; rewrite (int_log_probability wf eb' hsa ve sk hg).
rewrite (int_log_probability wf eb' hsa la_valid la_steps hg').
have hK i j : (i < size t)%N -> (j < size t)%N ->
    integrated_cov b' (exposure X' i) (exposure X' j) = integrated_cov b' (exposure X i) (exposure X j).
  by move=> hi hj; rewrite !fi_exposure.
congr (inr (Fin _)); rewrite /log_normal !gp_quadE !gp_detE !size_coord_list.
by congr (Rmult _ (Rplus (Rplus _ (ln _)) _)); [apply: gpq_ext|apply: gpd_ext].
Qed.
End Label.

(** ** Exposures of length 0 *)
Lemma base_documented k : wf_integrated k -> forall b, base_kernel k = Some b ->
  [/\ wf_kernel b, documented b, const_obs b & transition_raises false b = None].
Proof.
elim: k => // [k1 IH1 k2 IH2|w q s n nm|l s n nm|l s n nm|l s n nm|l s n nm]; last 5 first.
- by move=> [h1 h2] b [<-]; split=> //; apply: (@integrated_base (IntegratedSHO w q s n nm) _ n).
- by move=> [h1 h2] b [<-].
- by move=> [h1 h2] b [<-].
- by move=> [h1 h2] b [<-].
- by move=> [h1 h2] b [<-].
move=> [/IH1 {}IH1 /IH2 {}IH2] b /=.
case e1: (base_kernel k1) => [b1|] //; case e2: (base_kernel k2) => [b2|] // [<-].
by have [? ? ? r1] := IH1 _ e1; have [? ? ? r2] := IH2 _ e2; split=> //=; rewrite r1.
Qed.
Lemma base_kept k dt : all_noise_kept dt k -> forall b, base_kernel k = Some b -> noise_kept dt b.
Proof.
elim: k => // [k1 IH1 k2 IH2|w q s n nm|l s n nm|l s n nm|l s n nm|l s n nm]; try by move=> [h1 h2] b [<-].
move=> [/IH1 {}IH1 /IH2 {}IH2] b /=.
case e1: (base_kernel k1) => [b1|] //; case e2: (base_kernel k2) => [b2|] // [<-].
by split; [apply: IH1|apply: IH2].
Qed.

Section Points.
Variables (k b : kernel) (t dl y : seq R) (inst : seq nat) (diag : option farray).
Variables (mean mean' : option (coord -> R)) (sa sa' : solver_arg) (g g' : gp).
Let X := CTriple t dl inst.
Hypothesis wf : wf_integrated k.
Hypothesis eb : base_kernel k = Some b.
Hypothesis ve : valid_exposures (instruments k) X diag y.
Hypothesis sk : exposure_steps_kept k X.
Hypothesis zero : forall i, (i < size t)%N -> nth 0%R dl i = 0%R.
Hypothesis srt : forall i j, (i <= j < size t)%N -> Rle (nth 0%R t i) (nth 0%R t j).
Hypothesis hsa : default_integrated_solver sa.
Hypothesis hsa' : default_solver sa'.

Lemma po_exp i : (i < size t)%N -> [/\ begin (exposure X i) = nth 0%R t i,
  finish (exposure X i) = nth 0%R t i & len (exposure X i) = 0%R].
Proof.
by move=> hi; rewrite fi_exposure // /begin /finish /= zero //; split=> //; toR; lra.
Qed.
Lemma po_bound i : (i < size t)%N -> boundary X (nth 0%R t i).
Proof. by move=> hi; exists i; split=> //; left; have [-> _ _] := po_exp hi. Qed.
Lemma po_bound_inv s : boundary X s -> exists2 i, (i < size t)%N & s = nth 0%R t i.
Proof. by case=> i [hi]; have [-> -> _] := po_exp hi; case=> ->; exists i. Qed.
Lemma po_steps : steps_kept b t.
Proof.
have N0 := ve_N ve; split.
  apply: (base_kept _ eb); have b0 := po_bound N0.
  rewrite -(Rminus_diag_eq _ _ (erefl (nth 0%R t 0))); apply: sk => //; first exact: Rle_refl.
  by move=> u _ [h1 /(Rlt_trans _ _ _ h1)/Rlt_irrefl].
move=> i hi; apply: (base_kept _ eb); have hi' := ltnW hi.
apply: sk; [exact: po_bound|exact: po_bound|by apply: srt; rewrite leqnSn|].
move=> u /po_bound_inv[j hj ->] [h1 h2]; case: (leqP j i) => ji.
  by have /Rle_not_lt : Rle (nth 0%R t j) (nth 0%R t i) by apply: srt; rewrite ji.
by have /Rle_not_lt : Rle (nth 0%R t i.+1) (nth 0%R t j) by apply: srt; rewrite ji.
Qed.
Lemma po_valid : valid_data (CArray t) diag y.
Proof. by split; [exact: (ve_N ve)|exact: srt| |exact: (ve_y ve)|exact: (ve_d ve)|exact: (ve_pos ve)]. Qed.

Lemma int_points : gaussian_process smolgp_ops k X diag mean sa = inr g ->
  gaussian_process smolgp_ops b (CArray t) diag mean' sa' = inr g' ->
  gp_log_probability smolgp_ops g y = gp_log_probability smolgp_ops g' y.
Proof.
have [wb db cb nr] := base_documented wf eb.
move=> hg hg'; rewrite (int_log_probability wf eb hsa ve sk hg).
have hk X1 X2 : kernel_evaluate false b X1 X2 = inr (evaluate (denote b) X1 X2).
  by rewrite kernel_evaluateE.
rewrite (thm_log_probability wb cb po_valid po_steps hk hsa' hg').
congr (inr (Fin _)); rewrite /log_normal !gp_quadE !gp_detE !size_coord_list.
have hK i j : (i < size t)%N -> (j < size t)%N ->
    integrated_cov b (exposure X i) (exposure X j)
    = evaluate (denote b) (nth (CT 0) (coord_list (CArray t)) i) (nth (CT 0) (coord_list (CArray t)) j).
  move=> hi hj; rewrite !fi_exposure // /integrated_cov /mean_cov !emP /= ?zero //; try exact: Rlt_irrefl.
  by rewrite evaluate_covariance // /alag !(nth_map 0%R).
by congr (Rmult _ (Rplus (Rplus _ (ln _)) _)); [apply: gpq_ext|apply: gpd_ext].
Qed.
End Points.
