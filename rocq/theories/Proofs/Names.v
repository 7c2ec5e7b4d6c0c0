(** Renaming components changes nothing but names. *)
From Coq Require Import Reals String.
From mathcomp Require Import all_ssreflect all_algebra.
From Verif.Prelude Require Import Rstruct.
From Verif.Spec Require Import WfKernel.
From Verif.Model Require Import Array BaseKernels IntegratedKernels Kernel Frontend.
From Verif.Proofs Require Import Evaluate.
Set Implicit Arguments.
Unset Strict Implicit.
Unset Printing Implicit Defensive.
Import GRing.Theory.

(** The expression with all names removed. *)
Fixpoint erase (k : kernel) : kernel :=
  match k with
  | Sum k1 k2 => Sum (erase k1) (erase k2)
  | Product k1 k2 => Product (erase k1) (erase k2)
  | Scale a k _ => Scale a (erase k) ""
  | k => set_name "" k
  end.

Lemma denote_erase k : denote (erase k) = denote k.
Proof. by elim: k => //= [a k -> //|k1 -> k2 -> //|k1 -> k2 -> //]. Qed.

Lemma wf_erase k : wf_kernel (erase k) = wf_kernel k.
Proof. by elim: k => //= [a k -> //|k1 -> k2 -> //|k1 -> k2 -> //]. Qed.

Lemma erase_set_name s k : erase (set_name s k) = erase k.
Proof. by case: k. Qed.

Lemma rename_erase counts k used r : rename counts k used = inr r -> erase r.1 = erase k.
Proof.
have leaf k0 used0 r0 :
  (match dget counts (kname k0) with
   | None => inl KeyError
   | Some c => if (1 < c)%N then
       match dget used0 (kname k0) with
       | None => inl KeyError
       | Some idx => inr (set_name (String.append (kname k0) (String.append "_" (nat_string idx))) k0,
                     dset used0 (kname k0) idx.+1) end
       else inr (k0, used0) end) = inr r0 -> erase r0.1 = erase k0.
  case: dget => // c; case: ifP => _; last by case=> <-.
  by case: dget => // idx [<-]; rewrite erase_set_name.
elim: k used r => //; try (by move=> *; apply: leaf; eassumption).
- move=> k1 IH1 k2 IH2 used r /=.
  case e1 : (rename counts k1 used) => [//|r1] /=.
  case e2 : (rename counts k2 r1.2) => [//|r2] /= [<-] /=.
  by rewrite (IH1 _ _ e1) (IH2 _ _ e2).
- move=> k1 IH1 k2 IH2 used r /=.
  case e1 : (rename counts k1 used) => [//|r1] /=.
  case e2 : (rename counts k2 r1.2) => [//|r2] /= [<-] /=.
  by rewrite (IH1 _ _ e1) (IH2 _ _ e2).
Qed.

Lemma unique_erase k k' : assign_unique_kernel_names k = inr k' -> erase k' = erase k.
Proof.
rewrite /assign_unique_kernel_names; case: ifP => _; first by case=> ->.
by case e : rename => [//|r] [<-]; apply: rename_erase e.
Qed.

Lemma unique_denote k k' : assign_unique_kernel_names k = inr k' -> denote k' = denote k.
Proof. by move=> /unique_erase e; rewrite -(denote_erase k') e denote_erase. Qed.

Lemma unique_wf k k' : assign_unique_kernel_names k = inr k' -> wf_kernel k -> wf_kernel k'.
Proof. by move=> /unique_erase e; rewrite -(wf_erase k') e wf_erase. Qed.

Lemma wf_not_integrated k : wf_kernel k -> gp_integrated k = false.
Proof.
rewrite /gp_integrated; elim: k => //= k1 IH1 k2 IH2 [w1 w2].
by rewrite has_cat IH1 ?IH2.
Qed.

Lemma gp_integrated_erase k : gp_integrated (erase k) = gp_integrated k.
Proof.
rewrite /gp_integrated; elim: k => //= k1 IH1 k2 IH2.
by rewrite !has_cat IH1 IH2.
Qed.
Lemma unique_integrated k k' : assign_unique_kernel_names k = inr k' ->
  gp_integrated k' = gp_integrated k.
Proof. by move=> /unique_erase e; rewrite -(gp_integrated_erase k') e gp_integrated_erase. Qed.

(** Construction succeeds when the names of the summands are distinct, and when no
    summand is a product. *)
Lemma unique_distinct k : string_uniq (map kname (extract_leaf_kernels false k)) ->
  assign_unique_kernel_names k = inr k.
Proof. by rewrite /assign_unique_kernel_names => ->. Qed.

(** observation rows, for states of the right dimension *)
Lemma obs_rowE k component X : obs_row (md (denote k)) k component X = observation_model k X component.
Proof. by rewrite /obs_row; case: eqP => // e; rewrite (eq_axiomK e) castmx_id. Qed.

Lemma obs_matrix_rowE k X : obs_matrix_row (md (denote k)) k X = mH (denote k) X.
Proof. by rewrite /obs_matrix_row; case: eqP => // e; rewrite (eq_axiomK e) castmx_id. Qed.

Lemma obs_row_total m k X : denote k = m -> obs_row (md m) k None X = mH m X.
Proof. by move=> <-; rewrite obs_rowE observation_model_None. Qed.

Lemma obs_matrix_row_total m k X : denote k = m -> obs_matrix_row (md m) k X = mH m X.
Proof. by move=> <-; rewrite obs_matrix_rowE. Qed.
