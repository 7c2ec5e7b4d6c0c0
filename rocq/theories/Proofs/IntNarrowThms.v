(** User-level statements: when conditioning an integrated model inverts a singular matrix. *)
From Coq Require Import Reals String Lra.
From mathcomp Require Import all_ssreflect all_algebra.
From Verif.Prelude Require Import Rstruct Psd.
From Verif.Spec Require Import Gp WfKernel CovOf LogNormal Data IntCov WfIntegrated Exposures Smoothable.
From Verif.Model Require Import Array Jax Ssm Sequential BaseKernels IntegratedKernels Kernel Integrated Frontend
  SequentialOps Gp.
From Verif.Proofs Require Import KernelThms FitThms IntBook FitInt IntThms IntNarrow FitIntCond IntExample IntCondExample.
Set Implicit Arguments.
Unset Strict Implicit.
Unset Printing Implicit Defensive.
Import Order.TTheory GRing.Theory Num.Theory.

Section Thms.
Variables (k b : kernel) (X : coords) (diag : option farray) (y : seq R).
Hypothesis wf : wf_integrated k.
Hypothesis ve : valid_exposures (instruments k) X diag y.
Hypothesis sk : exposure_steps_kept k X.
Variables (mean : option (coord -> R)) (sa : solver_arg) (g : gp).
Hypothesis hsa : default_integrated_solver sa.
Hypothesis hg : gaussian_process smolgp_ops k X diag mean sa = inr g.
Variable r : results (sdim_of (g_solver g)).
Hypothesis hr : so_condition (smolgp_ops (sv_kind (g_solver g))) (g_solver g) y true = inr r.

Lemma tied_singular i j : (i < num_coords X)%N -> (j < num_coords X)%N -> i <> j ->
  begin (exposure X i) = begin (exposure X j) ->
  exists q, (q.+1 < (num_coords X).*2)%N /\ nth 0%R (r_Pp r) q.+1 \notin unitmx.
Proof.
have [tm [dl [inst e]]] := triple ve; subst X => hi hj ij eb.
have [q [hq u]] := si_tied wf ve sk hi hj ij eb.
by exists q; split=> //; rewrite (si_call wf ve hsa hg hr).
Qed.
Lemma quiet_singular : ~ noisy_integrated k -> num_coords X <> 1%N ->
  exists q, (q.+1 < (num_coords X).*2)%N /\ nth 0%R (r_Pp r) q.+1 \notin unitmx.
Proof.
have [tm [dl [inst e]]] := triple ve; subst X => nk n1.
have [q [hq u]] := si_quiet wf ve sk nk n1.
by exists q; split=> //; rewrite (si_call wf ve hsa hg hr).
Qed.
End Thms.

Lemma int_call_defined k X diag y mean sa g : wf_integrated k ->
  valid_exposures (instruments k) X diag y -> default_integrated_solver sa ->
  gaussian_process smolgp_ops k X diag mean sa = inr g ->
  exists r, so_condition (smolgp_ops (sv_kind (g_solver g))) (g_solver g) y true = inr r.
Proof.
move=> wf ve hsa hg; have [tm [dl [inst e]]] := triple ve; subst X.
have [k' [_ ->]] := fi_gp wf ve hsa hg.
rewrite /= /int_solver_condition /traced_transition wf_integrated_raises //.
by eexists.
Qed.

(** Two exposures of different instruments that begin together; an IntegratedCosine. *)
Local Open Scope R_scope.
Definition X_tied : coords := CTriple [:: 1; 1; 5] [:: 2; 2; 1] [:: 0; 1; 0]%N.
Definition k_icos : kernel := IntegratedCosine 1 1 2 "c".
Lemma X_tied_valid : valid_exposures 2 X_tied (Some (Scalar 1)) [:: 1; 2; 3].
Proof.
split=> //.
- by case=> [|[|[|i]]] //= _; toR; lra.
- by case=> [|[|[|i]]].
- by case=> [|[|[|i]]] // [|[|[|j]]] //= _ _; rewrite /begin /finish /=; toR; lra.
- by case=> [|[|[|i]]] //= _; toR; lra.
Qed.
Lemma k_icos_wf : wf_integrated k_icos.
Proof. by split=> //; split; toR; lra. Qed.

Lemma tied_refuted : exists k X diag y g r q,
  [/\ wf_integrated k, noisy_integrated k, plain_integrated k &
      valid_exposures (instruments k) X diag y] /\
  gaussian_process smolgp_ops k X diag None NoSolver = inr g /\
  so_condition (smolgp_ops (sv_kind (g_solver g))) (g_solver g) y true = inr r /\
  (q.+1 < (num_coords X).*2)%N /\ nth 0%R (r_Pp r) q.+1 \notin unitmx.
Proof.
have hs : default_integrated_solver NoSolver by left.
have [g hg] := int_defined k_int_wf None hs X_tied_valid k_int_names.
have [r hr] := int_call_defined k_int_wf X_tied_valid hs hg.
have sk := plain_steps (X:=X_tied) k_int_wf k_int_plain.
have [q [hq u]] := tied_singular k_int_wf X_tied_valid sk hs hg hr (i:=0) (j:=1) isT isT ltac:(by []) erefl.
exists k_int, X_tied, (Some (Scalar 1)), [:: 1; 2; 3], g, r, q; split=> //.
by split; [exact: k_int_wf|exact: k_int_noisy|exact: k_int_plain|exact: X_tied_valid].
Qed.
Lemma quiet_refuted : exists k X diag y g r q,
  [/\ wf_integrated k, smoothable X, plain_integrated k &
      valid_exposures (instruments k) X diag y] /\
  gaussian_process smolgp_ops k X diag None NoSolver = inr g /\
  so_condition (smolgp_ops (sv_kind (g_solver g))) (g_solver g) y true = inr r /\
  (q.+1 < (num_coords X).*2)%N /\ nth 0%R (r_Pp r) q.+1 \notin unitmx.
Proof.
have hs : default_integrated_solver NoSolver by left.
have nk : names_ok k_icos by left; split.
have [g hg] := int_defined k_icos_wf None hs X_int_valid nk.
have [r hr] := int_call_defined k_icos_wf X_int_valid hs hg.
have sk := plain_steps (X:=X_int) k_icos_wf I.
have [q [hq u]] := quiet_singular k_icos_wf X_int_valid sk hs hg hr ltac:(by []) ltac:(by []).
exists k_icos, X_int, diag_int, y_int, g, r, q; split=> //.
by split; [exact: k_icos_wf|exact: X_int_smoothable| |exact: X_int_valid].
Qed.
