(** C33: component names are unique. *)
From Coq Require Import Reals String.
From mathcomp Require Import all_ssreflect all_algebra.
From Verif.Prelude Require Import Rstruct Psd.
From Verif.Spec Require Import Expm Gp Lti WfKernel Cov CovOf LogNormal Data Components.
From Verif.Model Require Import Array Jax Ssm Sequential Parallel BaseKernels IntegratedKernels Kernel
  Integrated Frontend SequentialOps Gp.
From Verif.Proofs Require Import KernelThms FitThms FitExample Components ComponentThms NameThms.
Import GRing.Theory.
Local Open Scope R_scope.

(** Whatever the solvers do ([ops] is arbitrary). *)

Theorem C33_distinct : forall ops k X diag mean sa g, names_free k \/ distinct (summand_names k) ->
  gaussian_process ops k X diag mean sa = inr g -> distinct (summand_names (g_kernel g)).
Proof. exact (fun ops k X diag mean sa g => @names_distinct ops k X diag mean sa g). Qed.
Print Assumptions C33_distinct.

Theorem C33_kept : forall ops k X diag mean sa g, distinct (summand_names k) ->
  gaussian_process ops k X diag mean sa = inr g -> g_kernel g = k.
Proof. exact (fun ops k X diag mean sa g => @names_kept ops k X diag mean sa g). Qed.
Print Assumptions C33_kept.

Theorem C33_condition_keeps_names : forall ops g y Xt comp lp c, distinct (summand_names (g_kernel g)) ->
  gp_condition ops g y Xt comp = inr (lp, c) -> g_kernel c = g_kernel g.
Proof. exact (fun ops g y Xt comp lp c => @names_condition ops g y Xt comp lp c). Qed.
Print Assumptions C33_condition_keeps_names.

(** If the names are distinct, or no summand is a product, construction only fails when
    it does without renaming. *)

Theorem C33_never_fails : forall ops k X diag mean sa e, names_ok k ->
  gaussian_process ops k X diag mean sa = inl e ->
  gp_init ops k X diag None mean sa None None false no_states = inl e.
Proof. exact (fun ops k X diag mean sa e => @names_never_fail ops k X diag mean sa e). Qed.
Print Assumptions C33_never_fails.

Example C33_ex : names_free k_aab /\ ~ distinct (summand_names k_aab) /\ names_ok k_aab /\
  exists g, gaussian_process smolgp_ops k_aab X_ex diag_ex None NoSolver = inr g.
Proof.
exact (conj k_aab_free (conj (fun h => proj1 h (or_introl Logic.eq_refl)) (conj k_aab_names
  match comp_example with ex_intro _ (ex_intro _ (ex_intro g (ex_intro _ (ex_intro _
    (conj _ (conj _ (conj h _))))))) => ex_intro _ g h end))).
Qed.

(** The general claim fails: a product makes construction raise, a numbered name can be in
    use already, and Matern ignores the name it is given. *)

Theorem C33_key_error_refuted : exists k X diag y, wf_kernel k /\ valid_data X diag y /\
  gaussian_process smolgp_ops k X diag None NoSolver = inl KeyError /\
  exists g, gp_init smolgp_ops k X diag None None NoSolver None None false no_states = inr g.
Proof. exact key_error_refuted. Qed.
Print Assumptions C33_key_error_refuted.

Theorem C33_clash_refuted : exists k X diag y g, wf_kernel k /\ valid_data X diag y /\
  (forall k', List.In k' (summands k) -> ~ is_product k') /\
  gaussian_process smolgp_ops k X diag None NoSolver = inr g /\
  ~ distinct (summand_names (g_kernel g)).
Proof. exact clash_refuted. Qed.
Print Assumptions C33_clash_refuted.

Theorem C33_matern_refuted : exists k X diag y g, wf_kernel k /\ valid_data X diag y /\
  (forall k', List.In k' (summands k) -> ~ is_product k') /\
  gaussian_process smolgp_ops k X diag None NoSolver = inr g /\
  ~ distinct (summand_names (g_kernel g)).
Proof. exact matern_refuted. Qed.
Print Assumptions C33_matern_refuted.
