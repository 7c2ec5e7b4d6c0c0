(** The sequential solver is linear in the data, and only sees time differences. *)
From mathcomp Require Import all_ssreflect all_algebra.
From Verif.Prelude Require Import Psd Zmod.
From Verif.Model Require Import Jax Ssm Sequential.
From Verif.Proofs Require Import ScanLemmas SeqIdeal SeqExact.
Set Implicit Arguments.
Unset Strict Implicit.
Unset Printing Implicit Defensive.
Import Order.TTheory GRing.Theory Num.Theory.
Local Open Scope ring_scope.

(** Two scans related step by step. *)
Section Rel.
Variables (C1 Y1 C2 Y2 : Type) (X : eqType) (f : C1 -> X -> C1 * Y1) (g : C2 -> X -> C2 * Y2).
Variables (rc : C1 -> C2 -> Prop) (ry : Y1 -> Y2 -> Prop).
Lemma lax_scan_rel c1 c2 xs :
  (forall c1 c2 x, x \in xs -> rc c1 c2 -> rc (f c1 x).1 (g c2 x).1 /\ ry (f c1 x).2 (g c2 x).2) ->
  rc c1 c2 -> forall y01 y02 i, (i < size xs)%N ->
  ry (nth y01 (lax_scan f c1 xs).2 i) (nth y02 (lax_scan g c2 xs).2 i).
Proof.
elim: xs c1 c2 => //= x xs IH c1 c2 h hc y1 y2 i.
have [h1 h2] := h _ _ _ (mem_head _ _) hc.
have {}IH := IH _ _ (fun a b z hz => h a b z (mem_behead (s := x :: xs) hz)) h1 y1 y2.
case: (f c1 x) h1 h2 IH => a1 b1 /=; case: (g c2 x) => a2 b2 /= h1 h2 IH.
case: (lax_scan f a1 xs) IH => ? ? /=; case: (lax_scan g a2 xs) => ? ? /= IH.
by case: i => // i hi; apply: IH.
Qed.
End Rel.

Section Lin.
Variables (F : realFieldType) (k : ssm F) (t R : seq F) (a : F) (y y1 y2 : seq F).
Let d := sdim k.
(** y = a y1 + y2 *)
Hypothesis hy : forall i, (i < size t)%N -> y`_i = a * y1`_i + y2`_i.

Let lin (m m1 m2 : 'cV[F]_d) := m = a *: m1 + m2.
Let lin1 (m m1 m2 : 'M[F]_1) := m = a *: m1 + m2.
(** Outputs of one step for y, y1 and y2 in one go. *)
Let rc (c : ('cV[F]_d * 'M[F]_d)) (c12 : ('cV[F]_d * 'M[F]_d) * ('cV[F]_d * 'M[F]_d)) :=
  [/\ lin c.1 c12.1.1 c12.2.1, c12.1.2 = c.2 & c12.2.2 = c.2].
Definition lin_out (o o1 o2 : kf_out F d) :=
  [/\ o_m o = a *: o_m o1 + o_m o2, o_mp o = a *: o_mp o1 + o_mp o2,
      o_v o = a *: o_v o1 + o_v o2,
      [/\ o_P o1 = o_P o, o_Pp o1 = o_Pp o & o_S o1 = o_S o] &
      [/\ o_P o2 = o_P o, o_Pp o2 = o_Pp o & o_S o2 = o_S o]].

Lemma linM p q (M : 'M[F]_(p, q)) r (m m1 m2 : 'M[F]_(q, r)) : m = a *: m1 + m2 ->
  M *m m = a *: (M *m m1) + M *m m2.
Proof. by move=> ->; rewrite mulmxDr -scalemxAr. Qed.
Lemma linD p q (u u1 u2 v v1 v2 : 'M[F]_(p, q)) : u = a *: u1 + u2 -> v = a *: v1 + v2 ->
  u + v = a *: (u1 + v1) + (u2 + v2).
Proof. by move=> -> ->; rewrite scalerDr !addrA; congr (_ + _); rewrite -!addrA; congr (_ + _); rewrite addrC. Qed.
Lemma linB p q (u u1 u2 v v1 v2 : 'M[F]_(p, q)) : u = a *: u1 + u2 -> v = a *: v1 + v2 ->
  u - v = a *: (u1 - v1) + (u2 - v2).
Proof. by move=> h1 h2; apply: linD => //; rewrite h2 scalerN opprD. Qed.

Let st z := kf_step (strans k) (snoise k) (sobs k) R t z.

Lemma step_lin c c1 c2 i : (i < size t)%N ->
  c.1 = a *: c1.1 + c2.1 -> c1.2 = c.2 -> c2.2 = c.2 ->
  ((st y c i).1.1 = a *: (st y1 c1 i).1.1 + (st y2 c2 i).1.1 /\
   (st y1 c1 i).1.2 = (st y c i).1.2 /\ (st y2 c2 i).1.2 = (st y c i).1.2) /\
  lin_out (st y c i).2 (st y1 c1 i).2 (st y2 c2 i).2.
Proof.
case: c c1 c2 => m P [m1 P1] [m2 P2] /= hi em eP1 eP2; subst P1 P2.
set Dt := if (0 < i)%N then _ else _.
have ep := linM (strans k 0 Dt) em.
have ev : (y`_i)%:M - sobs k t`_i *m (strans k 0 Dt *m m)
  = a *: ((y1`_i)%:M - sobs k t`_i *m (strans k 0 Dt *m m1)) +
    ((y2`_i)%:M - sobs k t`_i *m (strans k 0 Dt *m m2)) :> 'M_1.
  apply: linB; last exact: linM.
  by rewrite hy // raddfD /= scale_scalar_mx.
have em' := linD ep (linM (solve (sobs k t`_i *m (strans k 0 Dt *m P *m (strans k 0 Dt)^T + snoise k 0 Dt)
                *m (sobs k t`_i)^T + (R`_i)%:M)^T
             ((strans k 0 Dt *m P *m (strans k 0 Dt)^T + snoise k 0 Dt)
                *m (sobs k t`_i)^T)^T)^T ev).
by rewrite /lin_out /st /kf_step.
Qed.

Let o0 : kf_out F d := (0, 0, 0, 0, 0, 0).
Let o z i := nth o0 (KalmanFilter k t z R) i.

Lemma kf_lin i : (i < size t)%N -> lin_out (o y i) (o y1 i) (o y2 i).
Proof.
have cl n : (n <= size t)%N ->
  let c z := carry_of (st z) (0, spinf k) (iota 0 n) in
  (c y).1 = a *: (c y1).1 + (c y2).1 /\ (c y1).2 = (c y).2 /\ (c y2).2 = (c y).2.
  elim: n => [|n IH] hn; first by rewrite /= scaler0 addr0.
  cbv beta zeta; rewrite !carry_of_iotaS; have [h1 [h2 h3]] := IH (ltnW hn).
  by have [h _] := step_lin hn h1 h2 h3.
move=> hi; have [h1 [h2 h3]] := cl i (ltnW hi).
rewrite /o !oE //; by have [_ h] := step_lin hi h1 h2 h3.
Qed.

Let sh z i := nth (0, 0) (RTSSmoother t (KalmanFilter k t z R)) i.
Lemma rts_lin i : (i < size t)%N ->
  [/\ (sh y i).1 = a *: (sh y1 i).1 + (sh y2 i).1,
      (sh y1 i).2 = (sh y i).2 & (sh y2 i).2 = (sh y i).2].
Proof.
move=> hi; have N0 := leq_ltn_trans (leq0n _) hi.
elim: (size t - i.+1)%N {-2}i hi (erefl (size t - i.+1)%N) => [|n IH] j hj /esym e.
  have -> : j = (size t).-1.
    by apply/eqP; rewrite eqn_leq -ltnS prednK // hj /= -ltnS prednK // -subn_eq0 e.
  have hl : ((size t).-1 < size t)%N by rewrite prednK.
  have [e1 _ _ [eP1 _ _] [eP2 _ _]] := kf_lin hl.
  by rewrite /sh !(sh_last k _ R N0).
have hj1 : (j.+1 < size t)%N by rewrite -subn_gt0 e.
have e1 : (size t - j.+2 = n)%N by rewrite subnS e.
have [h1 h2 h3] := IH _ hj1 (esym e1).
have [em _ _ [eP1 _ _] [eP2 _ _]] := kf_lin hj.
have [_ emp _ [_ ePp1 _] [_ ePp2 _]] := kf_lin hj1.
have [n1 n2] := sh_next k y R hj1.
have [n11 n12] := sh_next k y1 R hj1; have [n21 n22] := sh_next k y2 R hj1.
rewrite -/(sh _ _) -/(o _ _) in n1 n2 n11 n12 n21 n22.
have g1 : Ggain k t y1 R j = Ggain k t y R j by rewrite /Ggain -!/(o _ _) eP1 ePp1.
have g2 : Ggain k t y2 R j = Ggain k t y R j by rewrite /Ggain -!/(o _ _) eP2 ePp2.
rewrite n1 n2 n11 n12 n21 n22 g1 g2 h2 h3 eP1 eP2 ePp1 ePp2; split=> //.
apply: linD => //; apply: linM; exact: linB.
Qed.

(** The same for the record that predict receives. *)
Definition lin_cond (c c1 c2 : conditioned F d) :=
  [/\ c_t c1 = c_t c /\ c_t c2 = c_t c,
      forall i, (i < size (c_t c))%N -> nth 0 (c_mp c) i = a *: nth 0 (c_mp c1) i + nth 0 (c_mp c2) i,
      forall i, (i < size (c_t c))%N -> nth 0 (c_mf c) i = a *: nth 0 (c_mf c1) i + nth 0 (c_mf c2) i,
      forall i, (i < size (c_t c))%N -> nth 0 (c_ms c) i = a *: nth 0 (c_ms c1) i + nth 0 (c_ms c2) i &
      [/\ c_Pp c1 = c_Pp c, c_Pp c2 = c_Pp c, c_Pf c1 = c_Pf c, c_Pf c2 = c_Pf c &
          (c_Ps c1 = c_Ps c /\ c_Ps c2 = c_Ps c)]].

Lemma pr_point_lin c c1 c2 s : (0 < size (c_t c))%N -> lin_cond c c1 c2 ->
  [/\ (@pr_point _ k c s).1 = a *: (@pr_point _ k c1 s).1 + (@pr_point _ k c2 s).1,
      (@pr_point _ k c1 s).2 = (@pr_point _ k c s).2 &
      (@pr_point _ k c2 s).2 = (@pr_point _ k c s).2].
Proof.
move=> N0 [[t1 t2] hp hf hs [p1 p2 f1 f2 [s1 s2]]].
have pk i : (i < size (c_t c))%N ->
  [/\ (@pr_kalman _ k c i s).1 = a *: (@pr_kalman _ k c1 i s).1 + (@pr_kalman _ k c2 i s).1,
      (@pr_kalman _ k c1 i s).2 = (@pr_kalman _ k c i s).2 &
      (@pr_kalman _ k c2 i s).2 = (@pr_kalman _ k c i s).2].
  by move=> hi; rewrite /pr_kalman /= t1 t2 f1 f2; split=> //; apply: linM; apply: hf.
have ps i (u u1 u2 : 'cV[F]_d * 'M[F]_d) : (i < size (c_t c))%N ->
  u.1 = a *: u1.1 + u2.1 -> u1.2 = u.2 -> u2.2 = u.2 ->
  [/\ (@pr_smooth _ k c i s u).1 = a *: (@pr_smooth _ k c1 i s u1).1 + (@pr_smooth _ k c2 i s u2).1,
      (@pr_smooth _ k c1 i s u1).2 = (@pr_smooth _ k c i s u).2 &
      (@pr_smooth _ k c2 i s u2).2 = (@pr_smooth _ k c i s u).2].
  case: u u1 u2 => m P [m1 P1] [m2 P2] hi /= em -> ->.
  rewrite t1 t2 p1 p2 s1 s2; split=> //.
  apply: linD => //; apply: linM; apply: linB; [exact: hs | exact: hp].
rewrite /pr_point t1 t2; set kn := searchsorted_right _ _.
have [h0|h0] := leqP kn 0; first by apply: ps => //=; rewrite scaler0 addr0.
have [hK|hK] := leqP (size (c_t c)) kn; first by apply: pk; rewrite prednK.
have hp1 : (kn.-1 < size (c_t c))%N by apply: leq_ltn_trans hK; apply: leq_pred.
by have [q1 q2 q3] := pk _ hp1; apply: ps.
Qed.

Lemma condition_lin b : (0 < size t)%N ->
  lin_cond (seq_condition k t y R b) (seq_condition k t y1 R b) (seq_condition k t y2 R b).
Proof.
move=> N0; have oo T (f : kf_out F d -> T) x z i : (i < size t)%N ->
   nth x (map f (KalmanFilter k t z R)) i = f (o z i) by move=> hi; apply: nth_out.
have meq (f : kf_out F d -> 'M[F]_d) z : (forall i, (i < size t)%N -> f (o z i) = f (o y i)) ->
   map f (KalmanFilter k t z R) = map f (KalmanFilter k t y R).
  move=> h; apply: (@eq_from_nth _ 0) => [|i]; first by rewrite !size_map !size_out.
  by rewrite size_map size_out => hi; rewrite !oo // h.
have szs z : size (RTSSmoother t (KalmanFilter k t z R)) = size t by rewrite size_sm; apply/maxn_idPr.
split=> //=.
- by move=> i hi; rewrite !oo //; case: (kf_lin hi).
- by move=> i hi; rewrite !oo //; case: (kf_lin hi).
- by move=> i hi; rewrite !(nth_map (0, 0)) ?szs //; case: (rts_lin hi).
split; try by apply: meq => i hi; case: (kf_lin hi) => _ _ _ [? ? ?] [? ? ?].
by split; apply: (@eq_from_nth _ 0) => [|i]; rewrite !size_map !szs // => hi;
  rewrite !(nth_map (0, 0)) ?szs //; case: (rts_lin hi).
Qed.

Lemma cond_ms_lin b i : (i < size t)%N ->
  nth 0 (c_ms (seq_condition k t y R b)) i
  = a *: nth 0 (c_ms (seq_condition k t y1 R b)) i + nth 0 (c_ms (seq_condition k t y2 R b)) i.
Proof.
by move=> hi; have [_ _ _ h _] := condition_lin b (leq_ltn_trans (leq0n _) hi); apply: h.
Qed.
Lemma cond_point_lin b s : (0 < size t)%N ->
  let p z := @pr_point _ k (seq_condition k t z R b) s in
  [/\ (p y).1 = a *: (p y1).1 + (p y2).1, (p y1).2 = (p y).2 & (p y2).2 = (p y).2].
Proof. by move=> N0; apply: (@pr_point_lin (seq_condition k t y R b)) => //; apply: condition_lin. Qed.

Lemma innov_cov_lin : 
  [seq o_S o | o <- KalmanFilter k t y1 R] = [seq o_S o | o <- KalmanFilter k t y R].
Proof.
apply: (@eq_from_nth _ 0) => [|i]; first by rewrite !size_map !size_out.
rewrite size_map size_out => hi; rewrite !(nth_map o0) ?size_out //.
by case: (kf_lin hi) => _ _ _ [? ? ?] _.
Qed.
End Lin.

(** The covariances do not depend on the data. *)
Lemma cond_covs_same (F : realFieldType) (k : ssm F) (t R z z' : seq F) b : (0 < size t)%N ->
  let c z := seq_condition k t z R b in
  [/\ c_Pp (c z) = c_Pp (c z'), c_Pf (c z) = c_Pf (c z') & c_Ps (c z) = c_Ps (c z')].
Proof.
move=> N0; have hz i : (i < size t)%N -> z'`_i = 0 * z`_i + z'`_i by rewrite mul0r add0r.
by have [_ _ _ _ [e1 _ e2 _ [e3 _]]] := condition_lin k R hz b N0.
Qed.

Lemma cond_point_cov_same (F : realFieldType) (k : ssm F) (t R z z' : seq F) b s : (0 < size t)%N ->
  (@pr_point _ k (seq_condition k t z R b) s).2 = (@pr_point _ k (seq_condition k t z' R b) s).2.
Proof.
move=> N0; have hz i : (i < size t)%N -> z'`_i = 0 * z`_i + z'`_i by rewrite mul0r add0r.
by have [_ e1 _] := cond_point_lin k R hz b s N0.
Qed.
Lemma cond_point_mean_lin (F : realFieldType) (k : ssm F) (t R y y1 y2 : seq F) a b s : (0 < size t)%N ->
  (forall i, (i < size t)%N -> y`_i = a * y1`_i + y2`_i) ->
  (@pr_point _ k (seq_condition k t y R b) s).1
  = a *: (@pr_point _ k (seq_condition k t y1 R b) s).1 + (@pr_point _ k (seq_condition k t y2 R b) s).1.
Proof. by move=> N0 hy; have [e1 _ _] := cond_point_lin k R hy b s N0. Qed.

(** Shifting the origin of time. *)
Section Shift.
Variables (F : realFieldType) (k : ssm F) (t y R : seq F) (c : F).
Hypothesis hH : forall s s', sobs k s = sobs k s'.
Let t' := [seq u + c | u <- t].

Lemma shift_nth i : (i < size t)%N -> t'`_i = t`_i + c.
Proof. by move=> hi; rewrite (nth_map 0). Qed.

Lemma shift_diff i j : (i < size t)%N -> (j < size t)%N -> t'`_i - t'`_j = t`_i - t`_j.
Proof. by move=> hi hj; rewrite !shift_nth // opprD addrACA subrr addr0. Qed.

Lemma KalmanFilter_shift : KalmanFilter k t' y R = KalmanFilter k t y R.
Proof.
rewrite /KalmanFilter /kalman_filter size_map; congr (_.2).
apply: lax_scan_ext => -[m P] i; rewrite mem_iota add0n => /andP[_ lt].
rewrite /kf_step (hH t'`_i t`_i).
have -> : (if (0 < i)%N then t'`_i - t'`_i.-1 else 0) = (if (0 < i)%N then t`_i - t`_i.-1 else 0).
  by case: ifP => // hi; rewrite shift_diff //; apply: leq_ltn_trans lt; apply: leq_pred.
by [].
Qed.

Lemma RTS_shift o : RTSSmoother t' o = @RTSSmoother _ k t o.
Proof.
rewrite /RTSSmoother /rts_smoother size_map; congr (rcons (rev _) _); congr (_.2).
apply: lax_scan_ext => -[m P] i; rewrite mem_rev mem_iota add0n => /andP[_ lt].
have h1 : (i.+1 < size t)%N by rewrite -ltn_predRL -subn1.
by rewrite /rts_step shift_diff // ltnW.
Qed.

Definition shifted d (c1 c2 : conditioned F d) :=
  [/\ c_t c1 = [seq u + c | u <- c_t c2],
   c_mp c1 = c_mp c2 /\ c_Pp c1 = c_Pp c2, c_mf c1 = c_mf c2 /\ c_Pf c1 = c_Pf c2,
   c_ms c1 = c_ms c2 /\ c_Ps c1 = c_Ps c2 & c_vS c1 = c_vS c2].

Lemma condition_shift b : shifted (seq_condition k t' y R b) (seq_condition k t y R b).
Proof. by rewrite /seq_condition KalmanFilter_shift RTS_shift. Qed.

Lemma cond_ms_shift b : c_ms (seq_condition k t' y R b) = c_ms (seq_condition k t y R b).
Proof. by have [_ _ _ [h _] _] := condition_shift b. Qed.
Lemma cond_Ps_shift b : c_Ps (seq_condition k t' y R b) = c_Ps (seq_condition k t y R b).
Proof. by have [_ _ _ [_ h] _] := condition_shift b. Qed.

Lemma searchsorted_shift (u : seq F) s :
  searchsorted_right [seq v + c | v <- u] (s + c) = searchsorted_right u s.
Proof. by rewrite /searchsorted_right count_map; apply: eq_count => v /=; rewrite ler_add2r. Qed.

Lemma pr_point_shift c1 c2 s : (0 < size (c_t c2))%N -> shifted c1 c2 ->
  @pr_point _ k c1 (s + c) = @pr_point _ k c2 s.
Proof.
move=> N0 [et [emp ePp] [emf ePf] [ems ePs] _].
have pk i : (i < size (c_t c2))%N -> @pr_kalman _ k c1 i (s + c) = @pr_kalman _ k c2 i s.
  move=> hi; rewrite /pr_kalman et emf ePf (nth_map 0) //.
  by rewrite opprD addrACA subrr addr0.
have ps i u : (i < size (c_t c2))%N -> @pr_smooth _ k c1 i (s + c) u = @pr_smooth _ k c2 i s u.
  move=> hi; rewrite /pr_smooth et emp ePp ems ePs (nth_map 0) //.
  by rewrite opprD addrACA subrr addr0.
rewrite /pr_point et size_map searchsorted_shift.
set kn := searchsorted_right _ _.
have [h0|h0] := leqP kn 0; first by apply: ps.
have [hK|hK] := leqP (size (c_t c2)) kn; first by apply: pk; rewrite prednK.
have hp1 : (kn.-1 < size (c_t c2))%N by apply: leq_ltn_trans hK; apply: leq_pred.
by rewrite ps // pk.
Qed.

Lemma cond_point_shift b s : (0 < size t)%N ->
  @pr_point _ k (seq_condition k t' y R b) (s + c) = @pr_point _ k (seq_condition k t y R b) s.
Proof. by move=> N0; apply: pr_point_shift => //; apply: condition_shift. Qed.
End Shift.
