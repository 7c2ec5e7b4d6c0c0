(** Concrete exposures: overlapping ones of two instruments, in no order, one of length 0;
    and two simultaneous ones for an IntegratedSHO. *)
From Coq Require Import Reals String Lra.
From mathcomp Require Import all_ssreflect all_algebra.
From Verif.Prelude Require Import Rstruct Psd.
From Verif.Spec Require Import WfKernel CovOf LogNormal Data IntCov WfIntegrated Exposures.
From Verif.Model Require Import Array BaseKernels IntegratedKernels Kernel Integrated Frontend SequentialOps Gp.
From Verif.Proofs Require Import Leaves KernelProps FitExample IntegratedThms FitInt IntThms.
Set Implicit Arguments.
Unset Strict Implicit.
Unset Printing Implicit Defensive.
Local Open Scope R_scope.

Definition k_int : kernel := Sum (IntegratedExp 2 1 2 "a") (IntegratedMatern32 1 3 2 "b").
Definition b_int : kernel := Sum (Exp 2 1 "a") (Matern32 1 3 "b").
Definition X_int : coords := CTriple [:: 1; 0; 3; 5] [:: 2; 4; 0; 1] [:: 0; 1; 0; 0]%N.
Definition diag_int : option farray := Some (Vector [:: 1; 2; 3; 1]).
Definition y_int : seq R := [:: 1; -1; 2; 3].

Lemma k_int_wf : wf_integrated k_int.
Proof. by rewrite /=; do 2!split=> //; toR; lra. Qed.
Lemma k_int_base : base_kernel k_int = Some b_int. Proof. by []. Qed.
Lemma k_int_plain : plain_integrated k_int. Proof. by []. Qed.
Lemma k_int_names : names_ok k_int.
Proof. by left=> /=; split; [move=> [h|[]]|split]. Qed.
Lemma X_int_valid : valid_exposures (instruments k_int) X_int diag_int y_int.
Proof.
split=> //.
- by case=> [|[|[|[|i]]]] //= _; toR; lra.
- by case=> [|[|[|[|i]]]].
- by case=> [|[|[|[|i]]]] // [|[|[|[|j]]]] //= _ _; rewrite /begin /finish /=; toR; lra.
- by case=> [|[|[|[|i]]]] //= _; toR; lra.
Qed.

Definition X_isho : coords := CTriple [:: isho_dt / 2; isho_dt / 2] [:: isho_dt; isho_dt] [:: 0; 1]%N.
Lemma k_isho_wf : wf_integrated k_isho.
Proof. by have [_ [h1 [h2 _]]] := k_isho_ex. Qed.
Lemma isho_dt_pos : 0 < isho_dt. Proof. by have := isho_dt_gt; lra. Qed.
Lemma X_isho_valid : valid_exposures (instruments k_isho) X_isho (Some (Scalar 1)) [:: 1; 2].
Proof.
have h := isho_dt_pos; split=> //.
- by case=> [|[|i]] //= _; toR; lra.
- by case=> [|[|i]].
- by case=> [|[|i]] // [|[|j]] //= _ _; rewrite /begin /finish /=; toR; lra.
- by case=> [|[|i]] //= _; toR; lra.
Qed.
Lemma isho_kept0 : all_noise_kept 0 k_isho.
Proof.
split; first by move=> _ _ i j; left; exact: sho_raw_0.
move=> _ _; split.
  move=> i j; left; rewrite !ord1 /isho_Q12_raw /expm1 /sq !Rmult_0_r exp_0 sin_0 cos_0.
  have o2 (a : 'I_2) : a = 0%R \/ a = 1%R by ordcase a; [left | right]; apply/val_inj.
  by case: (o2 i) => ->; rewrite /smul !mxE /=; toR; lra.
left; rewrite /isho_Q22_raw /isho_iQ22 /sq !Rmult_0_r exp_0 sin_0 cos_0.
have h : 0 < sho_eta 1 by exact: n_pos.
have A2 : 1 / (2 * sho_eta 1 * 1) * (1 / (2 * sho_eta 1 * 1)) = 1 / 3.
  apply: (Rmult_eq_reg_r (sho_eta 1 * sho_eta 1)); last by rewrite isho_nn; lra.
  by rewrite {2}isho_nn; field; lra.
rewrite A2; set v := 1 / (4 * _ * _) * _.
have -> : v = 0 by rewrite /v; lra.
by rewrite Rmax_left; lra.
Qed.
Lemma X_isho_kept : exposure_steps_kept k_isho X_isho.
Proof.
have h := isho_dt_pos.
have hb s : boundary X_isho s -> s = 0 \/ s = isho_dt.
  by case=> [[|[|i]]] [] // _ /=; rewrite /begin /finish /=; toR; case=> ->; [left|right|left|right]; lra.
move=> s s' /hb hs /hb hs' hle _.
have [e|e] : s' - s = 0 \/ s' - s = isho_dt.
  by case: hs hs' hle => -> [] -> hle; [left|right|left|left]; lra.
- rewrite e; exact: isho_kept0.
- rewrite e; split; [exact: k_isho_base_kept|exact: k_isho_kept].
Qed.
Lemma k_isho_names : names_ok k_isho. Proof. by left; split. Qed.

Definition X_points : coords := CTriple [:: 0; 1; 1] [:: 0; 0; 0] [:: 0; 1; 0]%N.
Lemma X_points_ex : valid_exposures (instruments k_int) X_points (Some (Scalar 1)) [:: 1; 2; 3] /\
  (forall i, (i < 3)%N -> nth 0 [:: 0; 0; 0] i = 0) /\
  (forall i j, (i <= j < 3)%N -> nth 0 [:: 0; 1; 1] i <= nth 0 [:: 0; 1; 1] j) /\
  X_points = CTriple [:: 0; 1; 1] [:: 0; 0; 0] [:: 0; 1; 0]%N.
Proof.
split; last split; last split=> //.
- split=> //.
  + by case=> [|[|[|i]]] //= _; toR; lra.
  + by case=> [|[|[|i]]].
  + by case=> [|[|[|i]]] // [|[|[|j]]] //= _ _; rewrite /begin /finish /=; toR; lra.
  + by case=> [|[|[|i]]] //= _; toR; lra.
- by case=> [|[|[|i]]].
- move=> i j /andP[hij hj]; move: i j hij hj.
  by case=> [|[|[|i]]] // [|[|[|j]]] //= _ _; lra.
Qed.
Lemma relabel_ex : valid_exposures (instruments k_int) X_int diag_int y_int /\
  (forall i, (i < instruments k_int)%N -> (1 - i < instruments k_int)%N) /\
  (forall i j, (i < instruments k_int)%N -> (j < instruments k_int)%N -> (1 - i = 1 - j)%N -> i = j) /\
  map (fun i => (1 - i)%N) [:: 0; 1; 0; 0]%N = [:: 1; 0; 1; 1]%N.
Proof.
split; first exact: X_int_valid.
split; first by case=> [|[|i]].
by split=> //; case=> [|[|i]] // [|[|j]].
Qed.
Lemma X_int_len i : (i < size [:: 2; 4; 0; 1])%N -> 0 <= nth 0 [:: 2; 4; 0; 1] i.
Proof. by case: i => [|[|[|[|i]]]] //= _; lra. Qed.
