(** Averages over exposures of a process with a positive semidefinite covariance have a positive
    semidefinite covariance. *)
From Coq Require Import Reals Lra.
From mathcomp Require Import all_ssreflect all_algebra.
From Coquelicot Require Import Coquelicot.
From Verif.Prelude Require Import Rstruct MxCalc Psd.
From Verif.Model Require Import BaseKernels.
From Verif.Spec Require Import Gp IntCov.
From Verif.Proofs Require Import LagInt.
Set Implicit Arguments.
Unset Strict Implicit.
Unset Printing Implicit Defensive.
Local Open Scope R_scope.

(** Sums over i < n *)
Fixpoint rsum (n : nat) (f : nat -> R) : R := if n is m.+1 then rsum m f + f m else 0.
Lemma rsum_ext n f g : (forall i, (i < n)%N -> f i = g i) -> rsum n f = rsum n g.
Proof. by elim: n => //= n IH h; rewrite IH ?h // => i hi; apply: h; apply: ltnW. Qed.
Lemma rsum_add n f g : rsum n (fun i => f i + g i) = rsum n f + rsum n g.
Proof. by elim: n => [|n IH] /=; [lra|rewrite IH; lra]. Qed.
Lemma rsum_scal n c f : rsum n (fun i => c * f i) = c * rsum n f.
Proof. by elim: n => [|n IH] /=; [lra|rewrite IH; lra]. Qed.
Lemma rsum_scalr n c f : rsum n (fun i => f i * c) = rsum n f * c.
Proof. by elim: n => [|n IH] /=; [lra|rewrite IH; lra]. Qed.
Lemma rsum_le n f g : (forall i, (i < n)%N -> f i <= g i) -> rsum n f <= rsum n g.
Proof.
elim: n => [|n IH] h /=; first lra.
have := IH (fun i hi => h i (ltnW hi)); have := h n (ltnSn n); lra.
Qed.
Lemma rsum_const n c : rsum n (fun _ => c) = INR n * c.
Proof. by elim: n => [|n IH]; [rewrite /=; lra|rewrite [rsum _ _]/= IH S_INR; lra]. Qed.
Lemma rsum_abs n f : Rabs (rsum n f) <= rsum n (fun i => Rabs (f i)).
Proof.
elim: n => [|n IH] /=; first by rewrite Rabs_R0; lra.
by have := Rabs_triang (rsum n f) (f n); lra.
Qed.
Lemma rsum_exch n m (f : nat -> nat -> R) : rsum n (fun i => rsum m (f i)) = rsum m (fun j => rsum n (fun i => f i j)).
Proof.
elim: n => [|n IH] /=; first by elim: m => //= m <-; lra.
by rewrite IH -rsum_add.
Qed.
Lemma rsum_cat n m f : rsum (n + m) f = rsum n f + rsum m (fun i => f (n + i)%N).
Proof. by elim: m => [|m IH] /=; rewrite ?addn0 ?addnS /= ?IH; lra. Qed.
Lemma rsum_flat N n f : rsum (N * n) f = rsum N (fun i => rsum n (fun a => f (i * n + a)%N)).
Proof. by elim: N => [|N IH] //=; rewrite mulSnr rsum_cat IH. Qed.

(** Riemann sums *)
Section Riemann.
Variables (f : R -> R) (a h e : R).
Hypothesis fc : forall x, continuous f x.
Hypothesis h0 : 0 <= h.
Lemma one_cell p : (forall x, p <= x <= p + h -> Rabs (f x - f p) <= e) -> Rabs (RInt f p (p + h) - h * f p) <= h * e.
Proof.
move=> hb.
have ef : ex_RInt f p (p + h) by apply: cont_RInt.
have ec : ex_RInt (fun _ : R => f p) p (p + h) by apply: ex_RInt_const.
have -> : RInt f p (p + h) - h * f p = RInt (fun x => f x - f p) p (p + h).
  rewrite (RInt_minus f (fun _ => f p)) // RInt_const /minus /plus /opp /scal /= /mult /=; inR; ring.
have := @abs_RInt_le_const (fun x => f x - f p) p (p + h) e; rewrite (_ : p + h - p = h); last ring.
by apply=> //; [lra|apply: (ex_RInt_minus f (fun _ => f p))].
Qed.
Lemma cells n : (forall j x, (j < n)%N -> a + INR j * h <= x <= a + INR j * h + h -> Rabs (f x - f (a + INR j * h)) <= e) ->
  Rabs (RInt f a (a + INR n * h) - rsum n (fun j => h * f (a + INR j * h))) <= INR n * (h * e).
Proof.
elim: n => [|n IH] hb.
  by rewrite /= Rmult_0_l Rplus_0_r RInt_point /zero /= Rmult_0_l Rminus_0_r Rabs_R0; lra.
have e1 : a + INR n.+1 * h = (a + INR n * h) + h by rewrite S_INR; ring.
have := IH (fun j x hj => hb j x (ltnW hj)).
have := @one_cell (a + INR n * h) (fun x => hb n x (ltnSn n)).
have i1 := @cont_RInt f a (a + INR n * h) fc.
have i2 := @cont_RInt f (a + INR n * h) (a + INR n * h + h) fc.
rewrite [rsum n.+1 _]/= e1 S_INR -(RInt_Chasles f a (a + INR n * h) (a + INR n * h + h)) // /plus /=.
set I1 := RInt f a _; set I2 := RInt f _ _; set S1 := rsum _ _; set S2 := h * f _ => b1 b2.
have -> : I1 + I2 - (S1 + S2) = (I1 - S1) + (I2 - S2) by ring.
have := Rabs_triang (I1 - S1) (I2 - S2); lra.
Qed.
End Riemann.

Definition node (n : nat) (X : coord) (j : nat) : R :=
  if Rlt_dec 0 (len X) then begin X + INR j * (len X / INR n) else mid X.
(** The mean over n points of the exposure. *)
Definition sample (n : nat) (X : coord) (f : R -> R) : R := rsum n (fun j => / INR n * f (node n X j)).

Section Sample.
Variables (n : nat) (X : coord).
Hypothesis n0 : (0 < n)%N.
Let np : 0 < INR n. Proof. by apply: lt_0_INR; apply/ltP. Qed.
Lemma node_in j : (j < n)%N -> begin X <= node n X j <= finish X \/ node n X j = mid X.
Proof.
move=> hj; rewrite /node; case: Rlt_dec => h /=; last by right.
left; have hl : 0 < len X / INR n by apply: Rdiv_lt_0_compat.
have h1 : 0 <= INR j by apply: pos_INR.
have h2 : INR j <= INR n by apply: le_INR; apply/leP; apply: ltnW.
have h3 : finish X = begin X + INR n * (len X / INR n) by rewrite /finish /begin; field; lra.
have := Rmult_le_pos _ _ h1 (Rlt_le _ _ hl).
have := Rmult_le_compat_r _ _ _ (Rlt_le _ _ hl) h2; lra.
Qed.
Lemma sample_near f e : (forall x, continuous f x) ->
  (0 < len X -> forall x y, begin X <= x <= finish X -> begin X <= y <= finish X -> Rabs (x - y) <= len X / INR n ->
    Rabs (f x - f y) <= e) -> 0 <= e -> Rabs (exposure_mean X f - sample n X f) <= e.
Proof.
move=> fc hf e0; case: (Rlt_dec 0 (len X)) => h; last first.
  rewrite emP // /sample (rsum_ext (g := fun _ => / INR n * f (mid X))); last first.
    by move=> j _; rewrite /node; case: Rlt_dec.
  rewrite rsum_const (_ : _ - _ = 0) ?Rabs_R0 //; field; lra.
set s := len X / INR n.
have s0 : 0 < s by apply: Rdiv_lt_0_compat.
have fin : finish X = begin X + INR n * s by rewrite /finish /begin /s; field; lra.
have := @cells f (begin X) s e fc (Rlt_le _ _ s0) n; rewrite -fin => /(_ _) hc.
rewrite emL // /sample.
have -> : rsum n (fun j => / INR n * f (node n X j)) = rsum n (fun j => s * f (begin X + INR j * s)) / len X.
  rewrite /Rdiv -rsum_scalr; apply: rsum_ext => j _; rewrite /node; case: Rlt_dec => //= _.
  by rewrite -/s {2}/s; field; split; lra.
have := hc _; set I := RInt _ _ _; set S := rsum _ _ => {}hc.
have -> : I / len X - S / len X = (I - S) * / len X by rewrite /Rdiv; ring.
rewrite Rabs_mult (Rabs_pos_eq (/ len X)); last by apply: Rlt_le; apply: Rinv_0_lt_compat.
apply: (Rmult_le_reg_r (len X)) => //; rewrite Rmult_assoc Rinv_l ?Rmult_1_r; last lra.
have -> : e * len X = INR n * (s * e) by rewrite /s; field; lra.
apply: hc => j x hj hx; apply: hf => //.
- have h1 : 0 <= INR j by apply: pos_INR.
  have h2 : INR j + 1 <= INR n by rewrite -S_INR; apply: le_INR; apply/leP.
  have := Rmult_le_pos _ _ h1 (Rlt_le _ _ s0).
  have := Rmult_le_compat_r _ _ _ (Rlt_le _ _ s0) h2; lra.
- have h1 : 0 <= INR j by apply: pos_INR.
  have h2 : INR j + 1 <= INR n by rewrite -S_INR; apply: le_INR; apply/leP.
  have := Rmult_le_pos _ _ h1 (Rlt_le _ _ s0).
  have := Rmult_le_compat_r _ _ _ (Rlt_le _ _ s0) h2; lra.
- rewrite -/s; clear -hx; rewrite Rabs_pos_eq; lra.
Qed.
End Sample.

(** Every point of an exposure. *)
Definition within (X : coord) (x : R) : Prop := (0 < len X /\ begin X <= x <= finish X) \/ x = mid X.
Definition radius (X : coord) : R := Rabs (mid X) + Rabs (len X).
Lemma within_radius X x : within X x -> Rabs x <= radius X.
Proof.
rewrite /within /begin /finish /radius => -[[h1 h2]|->]; last by have := Rabs_pos (len X); lra.
rewrite (Rabs_pos_eq (len X)); last lra.
by apply: Rabs_le; have := Rle_abs (mid X); have := Rle_abs (- mid X); rewrite Rabs_Ropp; lra.
Qed.
Lemma node_within n X j : (0 < n)%N -> (j < n)%N -> within X (node n X j).
Proof.
move=> n0 hj; case: (Rlt_dec 0 (len X)) => h; last by right; rewrite /node; case: Rlt_dec.
by have [h1|h1] := @node_in n X n0 j hj; [left|right].
Qed.
Lemma em_near X (f g : R -> R) e : (forall x, continuous f x) -> (forall x, continuous g x) ->
  (forall x, within X x -> Rabs (f x - g x) <= e) -> Rabs (exposure_mean X f - exposure_mean X g) <= e.
Proof.
move=> fc gc h; case: (Rlt_dec 0 (len X)) => l0; last by rewrite !emP //; apply: h; right.
rewrite !emL //.
have ef : ex_RInt f (begin X) (finish X) by apply: cont_RInt.
have eg : ex_RInt g (begin X) (finish X) by apply: cont_RInt.
have hb : begin X <= finish X by rewrite /begin /finish; lra.
have := @abs_RInt_le_const (fun x => f x - g x) (begin X) (finish X) e hb (ex_RInt_minus f g _ _ ef eg).
rewrite (RInt_minus f g) // (_ : finish X - begin X = len X); last by rewrite /begin /finish; field.
move=> /(_ (fun t ht => h t (or_introl (conj l0 ht)))); rewrite /minus /plus /opp /=.
set I := RInt f _ _; set J := RInt g _ _ => hi.
have -> : I / len X - J / len X = (I + - J) * / len X by rewrite /Rdiv; ring.
rewrite Rabs_mult (Rabs_pos_eq (/ len X)); last by apply: Rlt_le; apply: Rinv_0_lt_compat.
apply: (Rmult_le_reg_r (len X)) => //; rewrite Rmult_assoc Rinv_l ?Rmult_1_r; last lra.
by lra.
Qed.

Section Main.
Variable kap : R -> R.
Hypothesis kap_c : forall x, continuous kap x.
Lemma left_c v x : continuous (fun u => kap (u - v)) x.
Proof.
apply: (continuous_comp (fun u => u - v) kap) => //.
apply: (continuous_minus (fun u : R => u) (fun _ => v)); [exact: continuous_id|exact: continuous_const].
Qed.
Lemma right_c u x : continuous (fun v => kap (u - v)) x.
Proof.
apply: (continuous_comp (fun v => u - v) kap) => //.
apply: (continuous_minus (fun _ => u) (fun v : R => v)); [exact: continuous_const|exact: continuous_id].
Qed.
Lemma k1_left_c v x : continuous (fun u => k1 kap (u - v)) x.
Proof.
apply: (continuous_comp (fun u => u - v) (k1 kap)); last exact: k1_c.
apply: (continuous_minus (fun u : R => u) (fun _ => v)); [exact: continuous_id|exact: continuous_const].
Qed.
Lemma em_c Y x : continuous (fun u => exposure_mean Y (fun v => kap (u - v))) x.
Proof.
case: (Rlt_dec 0 (len Y)) => h; last first.
  apply: (continuous_ext (fun u => kap (u - mid Y))); last exact: left_c.
  by move=> u; rewrite emP.
apply: (continuous_ext (fun u => (k1 kap (u - begin Y) - k1 kap (u - finish Y)) * / len Y)).
  by move=> u; rewrite emL // int_v.
apply: (continuous_mult (fun u => k1 kap (u - begin Y) - k1 kap (u - finish Y)) (fun _ => / len Y)); last exact: continuous_const.
by apply: (continuous_minus (fun u => k1 kap (u - begin Y)) (fun u => k1 kap (u - finish Y))); exact: k1_left_c.
Qed.

Lemma sample_sub n X f g : sample n X f - sample n X g
  = rsum n (fun j => / INR n * (f (node n X j) - g (node n X j))).
Proof.
rewrite [RHS](rsum_ext (g := fun j => / INR n * f (node n X j) + (-1) * (/ INR n * g (node n X j)))).
  by rewrite rsum_add (rsum_scal n (-1)) /sample; ring.
by move=> j _; ring.
Qed.

Section Near.
Variables (B dl e : R) (n : nat).
Hypothesis e0 : 0 <= e.
Hypothesis n0 : (0 < n)%N.
Hypothesis unif : forall r r', Rabs r <= B -> Rabs r' <= B -> Rabs (r - r') <= dl -> Rabs (kap r - kap r') <= e.
Variables X Y : coord.
Hypothesis hB : radius X + radius Y <= B.
Hypotheses (nX : 0 < len X -> len X / INR n <= dl) (nY : 0 < len Y -> len Y / INR n <= dl).
Let inB x y : within X x -> within Y y -> Rabs (x - y) <= B.
Proof.
move=> /within_radius h1 /within_radius h2; have := Rabs_triang x (- y); rewrite Rabs_Ropp.
by rewrite -/(Rminus x y); lra.
Qed.
Lemma double_near : Rabs (mean_cov kap X Y - sample n X (fun u => sample n Y (fun v => kap (u - v)))) <= 2 * e.
Proof.
pose g u := exposure_mean Y (fun v => kap (u - v)).
have s1 : Rabs (mean_cov kap X Y - sample n X g) <= e.
  apply: sample_near => //; first exact: em_c.
  move=> l0 x y hx hy hxy; apply: em_near; try exact: right_c.
  move=> v hv; apply: unif.
  - by apply: inB => //; left.
  - by apply: inB => //; left.
  - by rewrite (_ : x - v - (y - v) = x - y); [have := nX l0; lra|ring].
have s2 : Rabs (sample n X g - sample n X (fun u => sample n Y (fun v => kap (u - v)))) <= e.
  have np : 0 < INR n by apply: lt_0_INR; apply/ltP.
  rewrite sample_sub.
  apply: (Rle_trans _ _ _ (rsum_abs _ _)).
  have -> : e = rsum n (fun _ => / INR n * e) by rewrite rsum_const; field; lra.
  apply: rsum_le => j hj; rewrite Rabs_mult Rabs_pos_eq; last by apply: Rlt_le; apply: Rinv_0_lt_compat.
  apply: Rmult_le_compat_l; first by apply: Rlt_le; apply: Rinv_0_lt_compat.
  have hw := node_within X n0 hj.
  apply: sample_near => //; first exact: right_c.
  move=> l0 x y hx hy hxy; apply: unif.
  - by apply: inB => //; left.
  - by apply: inB => //; left.
  - by rewrite (_ : _ - _ = - (x - y)) ?Rabs_Ropp; [have := nY l0; lra|ring].
move: s1 s2; set a := mean_cov _ _ _; set b := sample n X g; set c := sample n X _ => s1 s2.
rewrite (_ : a - c = (a - b) + (b - c)); last ring.
by apply: (Rle_trans _ _ _ (Rabs_triang _ _)); lra.
Qed.
End Near.

Hypothesis points : forall m (u c : nat -> R), 0 <= rsum m (fun i => c i * rsum m (fun j => c j * kap (u i - u j))).
Section Quad.
Variables (N : nat) (X : nat -> coord) (c : nat -> R).
Definition quad (K : coord -> coord -> R) : R := rsum N (fun i => c i * rsum N (fun j => c j * K (X i) (X j))).
Lemma quad_sample n : (0 < n)%N -> 0 <= quad (fun x y => sample n x (fun u => sample n y (fun v => kap (u - v)))).
Proof.
move=> n0; have := points (N * n) (fun q => node n (X (q %/ n)%N) (q %% n)%N) (fun q => c (q %/ n)%N * / INR n).
rewrite rsum_flat; congr (0 <= _); apply: rsum_ext => i hi.
have dm (x a : nat) : (a < n)%N -> ((x * n + a) %/ n = x)%N /\ ((x * n + a) %% n = a)%N.
  by move=> ha; rewrite divnMDl // divn_small // addn0 modnMDl modn_small.
rewrite -rsum_scal.
rewrite (rsum_ext (g := fun a => c i * / INR n * rsum N (fun j => c j * rsum n (fun b => / INR n * kap (node n (X i) a - node n (X j) b))))); last first.
  move=> a ha; have [-> ->] := dm i a ha; congr (_ * _); rewrite rsum_flat; apply: rsum_ext => j hj.
  by rewrite -rsum_scal; apply: rsum_ext => b hb; have [-> ->] := dm j b hb; rewrite Rmult_assoc.
rewrite (rsum_ext (g := fun a => rsum N (fun j => c i * (c j * (/ INR n * rsum n (fun b => / INR n * kap (node n (X i) a - node n (X j) b))))))); last first.
  by move=> a ha; rewrite -rsum_scal; apply: rsum_ext => j hj; ring.
rewrite rsum_exch; apply: rsum_ext => j hj.
by rewrite rsum_scal rsum_scal.
Qed.
Lemma quad_near K K' e : (forall i j, (i < N)%N -> (j < N)%N -> Rabs (K (X i) (X j) - K' (X i) (X j)) <= e) ->
  Rabs (quad K - quad K') <= rsum N (fun i => Rabs (c i)) * rsum N (fun j => Rabs (c j)) * e.
Proof.
move=> h.
have -> : quad K - quad K' = rsum N (fun i => c i * rsum N (fun j => c j * (K (X i) (X j) - K' (X i) (X j)))).
  rewrite /quad.
  rewrite [in RHS](rsum_ext (g := fun i => c i * rsum N (fun j => c j * K (X i) (X j)) + (-1) * (c i * rsum N (fun j => c j * K' (X i) (X j))))).
    by rewrite rsum_add (rsum_scal N (-1)); ring.
  move=> i _; rewrite (rsum_ext (g := fun j => c j * K (X i) (X j) + (-1) * (c j * K' (X i) (X j)))); last by move=> j _; ring.
  by rewrite rsum_add (rsum_scal N (-1)); ring.
apply: (Rle_trans _ _ _ (rsum_abs _ _)); rewrite Rmult_assoc -rsum_scalr; apply: rsum_le => i hi.
rewrite Rabs_mult; apply: Rmult_le_compat_l; first exact: Rabs_pos.
apply: (Rle_trans _ _ _ (rsum_abs _ _)); rewrite -rsum_scalr; apply: rsum_le => j hj.
by rewrite Rabs_mult; apply: Rmult_le_compat_l; [exact: Rabs_pos|exact: h].
Qed.
Let radii := rsum N (fun i => radius (X i)).
Let lens := rsum N (fun i => Rabs (len (X i))).
Lemma rsum_ge f i : (forall j, 0 <= f j) -> (i < N)%N -> f i <= rsum N f.
Proof.
move=> f0; elim: N => // m IH; rewrite ltnS leq_eqVlt => /orP[/eqP ->|/IH] /=.
  have : 0 <= rsum m f by elim: (m) => [|q hq] /=; [lra|have := f0 q; lra].
  lra.
by have := f0 m; lra.
Qed.
Lemma radius_pos x : 0 <= radius x.
Proof. by have := Rabs_pos (mid x); have := Rabs_pos (len x); rewrite /radius; lra. Qed.
Lemma quad_eps e : 0 < e -> exists n, (0 < n)%N /\ forall i j, (i < N)%N -> (j < N)%N ->
  Rabs (mean_cov kap (X i) (X j) - sample n (X i) (fun u => sample n (X j) (fun v => kap (u - v)))) <= 2 * e.
Proof.
move=> ep; pose B := 2 * radii.
have [d hd] := @unifcont_1d _ kap (- B) B (fun x _ => @kap_c x) (mkposreal e ep).
have [m hm] : exists m, 2 * lens / d < INR m.
  by have [z [h1 h2]] := nfloor_ex (Rabs (2 * lens / d)) (Rabs_pos _); exists z.+1; rewrite S_INR; have := Rle_abs (2 * lens / d); lra.
have dp := cond_pos d.
have np : 0 < INR m.+1 by apply: lt_0_INR; apply/ltP.
have hlen i : (i < N)%N -> 0 < len (X i) -> len (X i) / INR m.+1 <= d / 2.
  move=> hi l0; have := @rsum_ge (fun i => Rabs (len (X i))) i (fun j => Rabs_pos _) hi; rewrite -/lens Rabs_pos_eq; last lra.
  move=> h1; apply: (Rmult_le_reg_r (INR m.+1)) => //; rewrite /Rdiv Rmult_assoc Rinv_l ?Rmult_1_r; last lra.
  have h2 : 2 * lens < INR m * d.
    have := Rmult_gt_compat_r d _ _ dp hm; rewrite /Rdiv Rmult_assoc Rinv_l ?Rmult_1_r; lra.
  by rewrite S_INR; nra.
exists m.+1; split=> // i j hi hj.
apply: (@double_near B (d / 2) e m.+1); rewrite //; try lra.
- move=> r r' h1 h2 h3.
  have a1 : - B <= r <= B by apply/Rabs_le_between.
  have a2 : - B <= r' <= B by apply/Rabs_le_between.
  have hb : ball r d r' by rewrite /ball /= /AbsRing_ball /abs /minus /plus /opp /= -/(Rminus r' r) Rabs_minus_sym; lra.
  case: (Rle_dec (Rabs (kap r - kap r')) e) => // hn; exfalso; apply: (hd _ _ a1 a2 hb) => hbb; apply: hn.
  by apply: Rlt_le; move: hbb; rewrite /ball /= /AbsRing_ball /abs /minus /plus /opp /= -/(Rminus (kap r') (kap r)) Rabs_minus_sym.
- have := @rsum_ge (fun i => radius (X i)) i (fun j => radius_pos _) hi.
  have := @rsum_ge (fun i => radius (X i)) j (fun j => radius_pos _) hj; rewrite -/radii /B; lra.
- exact: hlen.
- exact: hlen.
Qed.
Lemma mean_quad : 0 <= quad (mean_cov kap).
Proof.
pose C := rsum N (fun i => Rabs (c i)) * rsum N (fun j => Rabs (c j)).
have C0 : 0 <= C.
  have h : 0 <= rsum N (fun i => Rabs (c i)) by elim: (N) => [|q hq] /=; [lra|have := Rabs_pos (c q); lra].
  exact: Rmult_le_pos.
case: (Rle_dec 0 (quad (mean_cov kap))) => // /Rnot_le_lt hn; exfalso.
pose q := - quad (mean_cov kap).
have ep : 0 < q / (4 * (C + 1)) by apply: Rdiv_lt_0_compat; rewrite /q; lra.
have [n [n0 hq]] := quad_eps ep.
pose D x y := sample n x (fun u => sample n y (fun v => kap (u - v))).
have := @quad_near (mean_cov kap) D _ hq; have := quad_sample n0; rewrite -/C -/D.
set Q := quad D => h1; move/Rabs_le_between => -[h2 h3].
have : C * (2 * (q / (4 * (C + 1)))) < q.
  apply: (Rmult_lt_reg_r (C + 1)); first lra.
  rewrite (_ : _ * (C + 1) = C * q / 2); last by field; lra.
  by rewrite /q; nra.
have eq : quad (mean_cov kap) = - q by rewrite /q; ring.
by move: h2; rewrite eq; lra.
Qed.
End Quad.
End Main.
