(** What conditioning returns when the last state is the start of an exposure of length 0. *)
From Coq Require Import Reals String Lra.
From mathcomp Require Import all_ssreflect all_algebra.
From Coquelicot Require Import Coquelicot.
From Verif.Prelude Require Import Rstruct Psd.
From Verif.Spec Require Import Expm Gp WfKernel Cov CovOf LogNormal Data IntCov WfIntegrated Exposures Smoothable FirstOpen.
From Verif.Model Require Import Array Jax Helpers Ssm Sequential Parallel BaseKernels IntegratedKernels Kernel Integrated
  Frontend SequentialOps Gp.
From Verif.Proofs Require Import ParIntFront GpExt VanLoan IntLeaf Joint Leaves Fit LagInt KernelProps FitExample IntegratedThms IntBook
  WindowCov WindowKernel IntWide IntPd FitInt IntThms IntExample FitIntCond IntCondThms IntNarrowThms ParIntRefute.
Set Implicit Arguments.
Unset Strict Implicit.
Unset Printing Implicit Defensive.
Import GRing.Theory.

Section Defs.
Local Open Scope ring_scope.
Variables (F : realFieldType) (d : nat) (A Q : 'M[F]_d) (H : 'M[F]_(1, d)) (RESET P0 : 'M[F]_d).
Definition ls_gain (P : 'M[F]_d) : 'cV[F]_d := (solve (H *m P *m H^T + 1%:M)^T (P *m H^T)^T)^T.
Definition ls_upd (P : 'M[F]_d) : 'M[F]_d := P - ls_gain P *m (H *m P *m H^T + 1%:M) *m (ls_gain P)^T.
Definition ls_pred : 'M[F]_d := A *m (RESET *m ls_upd P0 *m RESET^T) *m A^T + Q.
Definition ls_mean : 'cV[F]_d := ls_upd P0 *m (A *m RESET)^T *m invmx ls_pred *m (RESET *m ls_gain ls_pred).
End Defs.

Section Arrays.
Local Open Scope ring_scope.
Variables (F : realFieldType) (d : nat) (A Q : F -> F -> 'M[F]_d) (H : 'M[F]_(1, d)).
Variables (RESET : nat -> 'M[F]_d) (P0 : 'M[F]_d).
Hypothesis A0 : A 0 0 = 1%:M.
Hypothesis Q0 : Q 0 0 = 0.
Hypothesis pP0 : pdmx P0.
Hypothesis uA : forall x, A 0 x \in unitmx.
Hypothesis pQ : psdmx (Q 0 1).
Hypothesis full : forall v, (RESET 0)^T *m ((A 0 1)^T *m v) = 0 -> qf (Q 0 1) v = 0 -> v = 0.
Let t := @t_states F [:: 0; 1] [:: 0; 0].
Let obs := @obsid F [:: 0; 1] [:: 0; 0].
Let state := @stateid F [:: 0; 1] [:: 0; 0].
Let inst := [:: 0; 0]%N.
Let y : seq F := [:: 0; 1].
Let Rn : seq F := [:: 1; 1].
Let out := integrated_kalman_filter A Q [:: H; H] RESET Rn y t obs inst state 0 P0.
Let c := Integrated.int_condition A Q [:: H; H] RESET Rn y t obs inst state P0 true.
Let gain := ls_gain H.
Let upd_P := ls_upd H.
Let P1 := upd_P P0.
Let V := ls_pred (A 0 1) (Q 0 1) H (RESET 0) P0.

Lemma ls_pd k : (k < 4)%N -> pdmx (o_Pp (nth (0, 0, 0, 0, 0, 0) out k)).
Proof.
move=> hk; apply: (@IntPd.ip_pd F d A Q [:: H; H] RESET Rn y [:: 0; 1] [:: 0; 0] inst P0) => //.
  - by rewrite Q0; apply: psd0.
  - by rewrite -/t /t zero_t => -[|[|[|i]]] //= _; rewrite ?subrr ?subr0 ?Q0 //; apply: psd0.
  - by case=> [|[|i]] //= _; apply: Num.Theory.ltr01.
  - rewrite zero_t zero_state zero_obs => -[|[|[|i]]] v //= _ _; rewrite subr0; exact: full.
Qed.
Lemma ls_out : out = [:: (0, P1, 0, P0, 0, H *m P0 *m H^T + 1%:M);
    (0, RESET 0 *m P1 *m (RESET 0)^T, 0, P1, 0, 0);
    (gain V, upd_P V, 0, V, 1%:M, H *m V *m H^T + 1%:M);
    (RESET 0 *m gain V, RESET 0 *m upd_P V *m (RESET 0)^T, gain V, upd_P V, 0, 0)].
Proof.
rewrite /out /integrated_kalman_filter /t /obs /state zero_t zero_obs zero_state.
  rewrite /arange /= !subrr !subr0 A0 Q0 !mulmx0 !trmx1 !mul1mx !mulmx1 !addr0.
  have z : (0 : F)%:M = 0 :> 'M[F]_1 by exact: raddf0.
  by rewrite z !(subr0, mulmx0, addr0, mulmx1, add0r).
Qed.
Lemma ls_units q : (q < 4)%N -> nth 0 (c_Pp c) q \in unitmx.
Proof.
move=> hq; rewrite (nth_map (0, 0, 0, 0, 0, 0)); last by rewrite -/out ls_out.
by apply: pd_unit; apply: ls_pd.
Qed.
Lemma ls_V : ls_pred (A 0 1) (Q 0 1) H (RESET 0) P0 \in unitmx.
Proof. by have := ls_units (q := 2) isT; rewrite /= -/out ls_out. Qed.

Lemma last_start_ms : nth 0 (c_ms c) 0 = ls_mean (A 0 1) (Q 0 1) H (RESET 0) P0.
Proof.
have pd := ls_pd; have outE := ls_out; have u2 : V \in unitmx := ls_V; rewrite /ls_mean -/V -/(upd_P P0) -/P1 -/(gain V).
have u1 : P1 \in unitmx by apply: pd_unit; have := pd 1%N isT; rewrite outE.
have u3 : upd_P V \in unitmx by apply: pd_unit; have := pd 3%N isT; rewrite outE.
have s1 : P1^T = P1 by have := pd 1%N isT; rewrite outE => -[].
have s2 : V^T = V by have := pd 2%N isT; rewrite outE => -[].
have s3 : (upd_P V)^T = upd_P V by have := pd 3%N isT; rewrite outE => -[].
rewrite /c /Integrated.int_condition -/out outE /= /integrated_rts_smoother /t /obs /state zero_t zero_obs zero_state /=.
rewrite /solve !subrr !subr0 !A0 !trmx1 !mulmx1 s1 s2 s3 !(mulVmx u1, mulVmx u2, mulVmx u3) !trmx1 !mul1mx.
by rewrite !add0r addrC subrK trmx_mul trmxK trmx_inv s2.
Qed.
End Arrays.
