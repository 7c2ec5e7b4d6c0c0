(** Concrete data sets, and statements that fail. *)
From Coq Require Import Reals String Lra.
From mathcomp Require Import all_ssreflect all_algebra.
From Verif.Prelude Require Import Rstruct Psd.
From Verif.Spec Require Import Gp Lti WfKernel LogNormal Data.
From Verif.Model Require Import Array Jax Ssm Sequential BaseKernels Kernel Integrated Frontend
  SequentialOps Gp.
From Verif.Proofs Require Import Lti KernelProps KernelThms Names Rename Fit FitAny FitThms FitMore FrontThms.
Set Implicit Arguments.
Unset Strict Implicit.
Unset Printing Implicit Defensive.
Local Open Scope R_scope.

(** Four data, two of them at the same time. *)
Definition dt_ex : R := flush_dt 1.
Definition X_ex : coords := CArray [:: 0; dt_ex; dt_ex; 2 * dt_ex].
Definition diag_ex : option farray := Some (Scalar (1 / 10)).
Definition y_ex : seq R := [:: 1; -1; 2; 3].
Definition X_ex_array : coords := CTriple [:: 0; dt_ex; dt_ex; 2 * dt_ex] [:: 1; 0; 2; 1] [:: 0; 1; 0; 0]%N.
(** Before the first datum, on data, after the last one. *)
Definition Xt_ex : coords := CArray [:: 3 * dt_ex; -1; dt_ex; 0].

Lemma X_ex_valid : valid_data X_ex diag_ex y_ex.
Proof.
have := flush_dt_ge0; rewrite -/dt_ex => h.
split=> //.
  move=> i j /andP[hij hj]; move: i j hij hj.
  by case=> [|[|[|[|i]]]] // [|[|[|[|j]]]] //= _ _; lra.
by case=> [|[|[|[|i]]]] //= _; lra.
Qed.

Lemma sho_raw_0 w q sigma i j : sho_Q_underdamped_raw w q sigma 0 i j = 0.
Proof.
have e : sho_Q_underdamped_raw w q sigma 0
   = smul (sq sigma) (mat 2 2 [:: [:: 0; 0]; [:: 0; 0]]).
  rewrite /sho_Q_underdamped_raw /expm1 /sq !Rmult_0_r /Rdiv !Rmult_0_l Ropp_0 exp_0 sin_0.
  congr smul; congr mat; congr [:: [:: _; _]; [:: _; _]]; lra.
rewrite e mxE; case: i => -[|[|i]] hi; case: j => -[|[|j]] hj //; rewrite mxE /=; toR; lra.
Qed.

Lemma kept0 : noise_kept 0 k_kept.
Proof. by split; last by []; move=> _ _ i j; left; exact: sho_raw_0. Qed.

Lemma X_ex_kept : steps_kept k_kept (times X_ex).
Proof.
split; first exact: kept0.
have e1 : dt_ex - 0 = flush_dt 1 by rewrite /dt_ex; lra.
have e2 : dt_ex - dt_ex = 0 by lra.
have e3 : 2 * dt_ex - dt_ex = flush_dt 1 by rewrite /dt_ex; lra.
case=> [|[|[|i]]] //= _; rewrite ?e1 ?e2 ?e3; first [exact: k_kept_noise | exact: kept0].
Qed.

Lemma Xt_ex_kept x : List.In x (coord_list Xt_ex) -> predict_kept k_kept (times X_ex) (coord_to_sortable x).
Proof.
have := flush_dt_ge0; rewrite -/dt_ex => h.
have dp : dt_ex <> 0.
  have [n1 n2] := n_bound; have := PI_RGT_0 => p; rewrite /dt_ex /flush_dt.
  by apply: Rgt_not_eq; apply: Rdiv_lt_0_compat; nra.
have e1 : 3 * dt_ex - 2 * dt_ex = flush_dt 1 by rewrite /dt_ex; lra.
have e2 : dt_ex - dt_ex = 0 by lra.
have e3 : 0 - 0 = 0 by lra.
move=> /=; case=> [<-|[<-|[<-|[<-|[]]]]] /= [|[|[|[|i]]]] //= _ le lt.
all: try (exfalso; lra).
all: rewrite ?e1 ?e2 ?e3; try exact: k_kept_noise; try exact: kept0.
all: try by exfalso; have := lt 1%N erefl; have := lt 2%N erefl; rewrite /=; lra.
all: try by exfalso; have := lt 3%N erefl; rewrite /=; lra.
all: try by exfalso; have := lt 2%N erefl; rewrite /=; lra.
Qed.

Lemma k_kept_const : const_obs k_kept. Proof. by []. Qed.
Lemma k_kept_names : names_ok k_kept. Proof. by left; split; [case | split; [case |]]. Qed.
Lemma k_kept_no_constant : no_constant k_kept. Proof. by []. Qed.

(** Every hypothesis of the statements about the front end, together. *)
Lemma fit_example : exists kern g lp c,
  (forall X1 X2, kernel_evaluate false k_kept X1 X2 = inr (kern X1 X2)) /\
  gaussian_process smolgp_ops k_kept X_ex diag_ex None NoSolver = inr g /\
  gp_condition smolgp_ops g y_ex None None = inr (lp, c).
Proof.
have [kern hk] := kernel_evaluate_fun k_kept_no_constant.
have [g hg] := thm_defined None k_kept_wf X_ex_valid (or_introl erefl) k_kept_names.
have [lp [c hc]] := thm_condition_defined k_kept_wf X_ex_valid hk (or_introl erefl) k_kept_names hg (ltac:(done)).
by exists kern, g, lp, c.
Qed.
