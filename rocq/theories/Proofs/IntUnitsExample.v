(** Exposures of two instruments, with time reversed and in another unit, and in another unit
    of the data. *)
From Coq Require Import Reals String Lra.
From mathcomp Require Import all_ssreflect all_algebra.
From Verif.Prelude Require Import Rstruct.
From Verif.Spec Require Import WfKernel CovOf Data IntCov WfIntegrated Exposures Smoothable TestTimes
  Transform IntTransform.
From Verif.Model Require Import Array BaseKernels IntegratedKernels Kernel Integrated Frontend SequentialOps Gp.
From Verif.Proofs Require Import FitInt IntThms IntExample IntUnits.
Set Implicit Arguments.
Unset Strict Implicit.
Unset Printing Implicit Defensive.
Local Open Scope R_scope.

Definition X_ut : coords := CTriple [:: 1; 0; 3; 5] [:: 2; 3; 0; 1] [:: 0; 1; 0; 0]%N.
Definition d_ut : seq R := [:: 1; 2; 3; 1].
Definition k_ut_time : kernel := int_dilate 24 k_int.
Definition k_ut_amp : kernel := int_amplify (-2) k_int.
Definition X_ut_rev : coords := clock_exposures 5 (-24) X_ut.

Lemma abs24 : Rabs (-24) = 24. Proof. by rewrite Rabs_left; lra. Qed.
Lemma X_ut_revE : X_ut_rev = CTriple [:: -19; 5; -67; -115] [:: 48; 72; 0; 24] [:: 0; 1; 0; 0]%N.
Proof.
rewrite /X_ut_rev /X_ut /clock_exposures /= /clock abs24; congr (CTriple _ _ _);
  repeat (apply: f_equal2; [by toR; lra|]); by [].
Qed.
Lemma k_ut_time_wf : wf_integrated k_ut_time.
Proof. by rewrite /=; do 2!split=> //; toR; lra. Qed.
Lemma k_ut_amp_wf : wf_integrated k_ut_amp.
Proof. by rewrite /=; do 2!split=> //; toR; lra. Qed.
Lemma X_ut_valid : valid_exposures 2 X_ut (Some (Vector d_ut)) y_int.
Proof.
split=> //.
- by case=> [|[|[|[|i]]]] //= _; toR; lra.
- by case=> [|[|[|[|i]]]].
- by case=> [|[|[|[|i]]]] // [|[|[|[|j]]]] //= _ _; rewrite /begin /finish /=; toR; lra.
- by case=> [|[|[|[|i]]]] //= _; toR; lra.
Qed.
Lemma X_ut_amp_valid : valid_exposures 2 X_ut (Some (Vector [seq (-2) ^ 2 * r | r <- d_ut])) [seq -2 * v | v <- y_int].
Proof.
have [h1 h2 h3 h4 h5 _ _ _] := X_ut_valid; split=> //.
by case=> [|[|[|[|i]]]] //= _; toR; lra.
Qed.
Lemma X_ut_rev_valid : valid_exposures 2 X_ut_rev (Some (Vector d_ut)) y_int.
Proof.
rewrite X_ut_revE; split=> //.
- by case=> [|[|[|[|i]]]] //= _; toR; lra.
- by case=> [|[|[|[|i]]]].
- by case=> [|[|[|[|i]]]] // [|[|[|[|j]]]] //= _ _; rewrite /begin /finish /=; toR; lra.
- by case=> [|[|[|[|i]]]] //= _; toR; lra.
Qed.
Lemma X_ut_smooth : smoothable X_ut.
Proof.
split.
  by case=> [|[|[|[|i]]]] // [|[|[|[|j]]]] //= _ _; rewrite /begin /finish /=; toR; lra.
exists 3%N; split=> //.
by case=> [|[|[|[|i]]]] //= _; rewrite /begin /finish /=; toR; lra.
Qed.
Lemma X_ut_rev_smooth : smoothable X_ut_rev.
Proof.
rewrite X_ut_revE; split.
  by case=> [|[|[|[|i]]]] // [|[|[|[|j]]]] //= _ _; rewrite /begin /finish /=; toR; lra.
exists 1%N; split=> //.
by case=> [|[|[|[|i]]]] //= _; rewrite /begin /finish /=; toR; lra.
Qed.
Lemma ut_names k : k = k_ut_time \/ k = k_ut_amp \/ k = k_int -> names_ok k.
Proof. by case=> [|[]] ->; left=> /=; split; [move=> [h|[]]|split|move=> [h|[]]|split|move=> [h|[]]|split]. Qed.
Lemma ut_example : exists g g1 g2,
  [/\ int_gp_of k_int b_int X_ut (Some (Vector d_ut)) y_int g,
      int_gp_of k_ut_time (dilate 24 b_int) X_ut_rev (Some (Vector d_ut)) y_int g1 &
      int_gp_of k_ut_amp (amplify (-2) b_int) X_ut (Some (Vector [seq (-2) ^ 2 * r | r <- d_ut]))
        [seq -2 * v | v <- y_int] g2] /\
  [/\ smooth_of k_int X_ut, smooth_of k_ut_time X_ut_rev & smooth_of k_ut_amp X_ut].
Proof.
have hs : default_integrated_solver NoSolver by left.
have [g hg] := int_defined k_int_wf None hs X_ut_valid (ut_names (or_intror (or_intror (erefl _)))).
have [g1 hg1] := int_defined k_ut_time_wf None hs X_ut_rev_valid (ut_names (or_introl (erefl _))).
have [g2 hg2] := int_defined k_ut_amp_wf None hs X_ut_amp_valid (ut_names (or_intror (or_introl (erefl _)))).
exists g, g1, g2; split; split.
- split; [exact: k_int_wf|by []|exact: X_ut_valid|exact: (plain_steps (X := X_ut) k_int_wf k_int_plain)|by exists None, NoSolver].
- split; [exact: k_ut_time_wf|by []|exact: X_ut_rev_valid|exact: (plain_steps (X := X_ut_rev) k_ut_time_wf (conj I I))|by exists None, NoSolver].
- split; [exact: k_ut_amp_wf|by []|exact: X_ut_amp_valid|exact: (plain_steps (X := X_ut) k_ut_amp_wf (conj I I))|by exists None, NoSolver].
- by split=> //; exact: X_ut_smooth.
- by split=> //; exact: X_ut_rev_smooth.
- by split=> //; exact: X_ut_smooth.
Qed.
