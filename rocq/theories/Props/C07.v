(** C07: the parallel result does not depend on the evaluation schedule. *)
From Coq Require Import Reals String.
From mathcomp Require Import all_ssreflect all_algebra.
From Verif.Prelude Require Import Rstruct Psd.
From Verif.Spec Require Import Expm Gp Lti WfKernel Cov CovOf LogNormal Data Schedule.
From Verif.Model Require Import Array Jax Ssm Sequential Parallel BaseKernels IntegratedKernels Kernel
  Integrated Frontend SequentialOps Gp.
From Verif.Proofs Require Import KernelThms FitExample FrontProps ParFront ParSchedule.
Import GRing.Theory.
Local Open Scope R_scope.

(** The elements the solver starts from (front_params) have positive semidefinite C and
    J, and then every bracketing of the same elements has the same product, all matrices
    that are inverted on the way being nonsingular. *)

Theorem C07_filter_elements : forall k X diag y, wf_kernel k -> const_obs k -> valid_data X diag y ->
  steps_kept k (times X) -> forall e,
  List.In e (filter_params (to_ssm (denote k)) (times X) y (variances diag (num_coords X))) ->
  psdmx (fC e) /\ psdmx (fJ e).
Proof. exact (fun k X diag y wf co vd kept e => front_params_ok wf co vd kept (e:=e)). Qed.
Print Assumptions C07_filter_elements.

Theorem C07_filter_schedule : forall (F : realFieldType) d (b b' : bracketing (felem F d)),
  elements b = elements b' ->
  (forall e, List.In e (elements b) -> psdmx (fC e) /\ psdmx (fJ e)) ->
  product (@filter_combine F d) b = product (@filter_combine F d) b'.
Proof. exact (fun F d b b' => @filter_schedule F d b b'). Qed.
Print Assumptions C07_filter_schedule.

Theorem C07_filter_inverts : forall (F : realFieldType) d (b b' : bracketing (felem F d)),
  (forall e, List.In e (elements b ++ elements b') -> psdmx (fC e) /\ psdmx (fJ e)) ->
  let e := product (@filter_combine F d) b in let e' := product (@filter_combine F d) b' in
  (1%:M + fC e *m fJ e')%R \in unitmx /\ (1%:M + fJ e' *m fC e)%R \in unitmx.
Proof. exact (fun F d b b' => @filter_inverts F d b b'). Qed.
Print Assumptions C07_filter_inverts.

Theorem C07_smoother_schedule : forall (F : realFieldType) d (b b' : bracketing (selem F d)),
  elements b = elements b' ->
  product (@smooth_combine F d) b = product (@smooth_combine F d) b'.
Proof. exact (fun F d b b' => @smooth_schedule F d b b'). Qed.
Print Assumptions C07_smoother_schedule.

(** What the filter returns is the product of any bracketing of the first elements. *)

Theorem C07_filter_scan : forall k X diag y, wf_kernel k -> const_obs k -> valid_data X diag y ->
  steps_kept k (times X) -> forall i b, (i < num_coords X)%N ->
  let nd := variances diag (num_coords X) in
  elements b = take i.+1 (filter_params (to_ssm (denote k)) (times X) y nd) ->
  nth (FElem 0 0 0 0 0)%R (parallel_kalman_filter (to_ssm (denote k)) (times X) y nd) i
  = product (@filter_combine _ _) b.
Proof. exact (fun k X diag y wf co vd kept i b hi e => scan_schedule wf co vd kept hi e). Qed.
Print Assumptions C07_filter_scan.

Example C07_ex : wf_kernel k_pk /\ const_obs k_pk /\ valid_data X_ex diag_ex y_ex /\
  steps_kept k_pk (times X_ex) /\
  let b := Two (One 1%N) (Two (One 2%N) (One 3%N)) in
  let b' := Two (Two (One 1%N) (One 2%N)) (One 3%N) in elements b = elements b'.
Proof. exact (conj k_pk_wf (conj k_pk_const (conj X_ex_valid (conj X_ex_pk Logic.eq_refl)))). Qed.
