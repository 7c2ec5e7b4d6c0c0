(** The sequential solver only reads the process noise at the lags between
    consecutive times, so it computes the same with the exact process noise
    whenever the two agree at those lags. *)
From Coq Require Import Reals.
From mathcomp Require Import all_ssreflect all_algebra.
From Verif.Prelude Require Import Rstruct.
From Verif.Spec Require Import Lti.
From Verif.Model Require Import Array Jax Ssm Sequential BaseKernels.
From Verif.Proofs Require Import Lti ScanLemmas SeqExact.
Set Implicit Arguments.
Unset Strict Implicit.
Unset Printing Implicit Defensive.
Import Order.TTheory GRing.Theory Num.Theory.
Local Open Scope ring_scope.

Lemma lax_scan_ext (C Y : Type) (X : eqType) (f g : C -> X -> C * Y) c xs :
  (forall c x, x \in xs -> f c x = g c x) -> lax_scan f c xs = lax_scan g c xs.
Proof.
elim: xs c => //= x xs IH c h; rewrite h ?mem_head //.
by case: (g c x) => c1 y; rewrite IH // => c' x' hx; apply: h; rewrite inE hx orbT.
Qed.

(** Two models that differ in their process noise only. *)
Section Noise.
Variables (F : realFieldType) (d : nat) (H : F -> 'M[F]_(1, d)) (A Q Q' : F -> F -> 'M[F]_d)
  (P : 'M[F]_d).
Let k := Ssm H A Q P.
Let k' := Ssm H A Q' P.
Variables (t y R : seq F).
Let same dt := Q 0 dt = Q' 0 dt.

Lemma kf_step_noise c i : same (if (0 < i)%N then t`_i - t`_i.-1 else 0) ->
  kf_step A Q H R t y c i = kf_step A Q' H R t y c i.
Proof. by case: c => m P' e; rewrite /kf_step; rewrite /same in e; rewrite e. Qed.

Lemma KalmanFilter_noise : same 0 ->
  (forall i, (i.+1 < size t)%N -> same (t`_i.+1 - t`_i)) ->
  KalmanFilter k t y R = KalmanFilter k' t y R.
Proof.
move=> h0 hi; congr (_.2).
apply: lax_scan_ext => c i; rewrite mem_iota add0n => /andP[_ lt].
by apply: kf_step_noise; case: i lt => [|i] lt //=; apply: hi.
Qed.

Lemma condition_noise b : same 0 ->
  (forall i, (i.+1 < size t)%N -> same (t`_i.+1 - t`_i)) ->
  seq_condition k t y R b = seq_condition k' t y R b.
Proof. by move=> h0 hi; rewrite /seq_condition KalmanFilter_noise. Qed.

Lemma pr_point_noise (c : conditioned F d) s : sorted <=%R (c_t c) ->
  (forall i, (i < size (c_t c))%N -> (c_t c)`_i <= s ->
     (forall j, (i < j < size (c_t c))%N -> s < (c_t c)`_j) ->
     same (s - (c_t c)`_i)) ->
  @pr_point _ k c s = @pr_point _ k' c s.
Proof.
move=> ts h.
have pk i : (i < size (c_t c))%N -> (c_t c)`_i <= s ->
     (forall j, (i < j < size (c_t c))%N -> s < (c_t c)`_j) ->
   @pr_kalman _ k c i s = @pr_kalman _ k' c i s.
  by move=> hi hle hlt; rewrite /pr_kalman /=; congr (_, _ + _); apply: h.
have cnt := sorted_count s ts.
rewrite /pr_point; set kn := searchsorted_right _ _.
case: ifP => [//|/negbT]; rewrite -ltnNge => h0.
have ksz : (kn <= size (c_t c))%N by apply: count_size.
have pk' : (kn.-1 < size (c_t c))%N by rewrite prednK.
have le1 : (c_t c)`_kn.-1 <= s by rewrite -cnt // prednK.
have gt1 j : (kn.-1 < j < size (c_t c))%N -> s < (c_t c)`_j.
  by move=> /andP[h1 h2]; rewrite ltNge -cnt // -leqNgt; rewrite prednK in h1.
case: ifP => [hK|_].
  have e : kn = size (c_t c) by apply/eqP; rewrite eqn_leq ksz.
  by rewrite -e; apply: pk.
by rewrite pk.
Qed.
End Noise.

Section Ideal.
Variable m : model.
Variables (t y R : seq Rdefinitions.R).

Lemma condition_ideal b :
  noise_exact_at m 0 ->
  (forall i, (i.+1 < size t)%N -> noise_exact_at m (t`_i.+1 - t`_i)) ->
  seq_condition (to_ssm m) t y R b = seq_condition (to_ssm (ideal m)) t y R b.
Proof. exact: condition_noise. Qed.

Lemma KalmanFilter_ideal :
  noise_exact_at m 0 ->
  (forall i, (i.+1 < size t)%N -> noise_exact_at m (t`_i.+1 - t`_i)) ->
  KalmanFilter (to_ssm m) t y R = KalmanFilter (to_ssm (ideal m)) t y R.
Proof. exact: KalmanFilter_noise. Qed.

Lemma pr_point_ideal (c : conditioned _ (md m)) s : sorted <=%R (c_t c) ->
  (forall i, (i < size (c_t c))%N -> (c_t c)`_i <= s ->
     (forall j, (i < j < size (c_t c))%N -> s < (c_t c)`_j) ->
     noise_exact_at m (s - (c_t c)`_i)) ->
  @pr_point _ (to_ssm m) c s = @pr_point _ (to_ssm (ideal m)) c s.
Proof. exact: pr_point_noise. Qed.
End Ideal.
