(** The closed forms of kernels/dense.py are the integrals of the underdamped SHO covariance. *)
From Coq Require Import Reals Lra.
From mathcomp Require Import all_ssreflect.
From Coquelicot Require Import Coquelicot.
From Verif.Prelude Require Import Rstruct MxCalc.
From Verif.Model Require Import BaseKernels Kernel Dense.
From Verif.Spec Require Import Cov IntCov.
From Verif.Proofs Require Import LagInt.
Set Implicit Arguments.
Unset Strict Implicit.
Unset Printing Implicit Defensive.
Local Open Scope R_scope.

Lemma ReqbP x y : reflect (x = y) (Reqb x y).
Proof. by rewrite /Reqb; case: Req_EM_T => h; constructor. Qed.

Section Sho.
Variable p : dense_sho.
Notation S := (dS p). Notation w := (dw p). Notation Q := (dQ p).
Notation eta := (d_eta p). Notation a := (d_a p).
Hypothesis hw : 0 < w.
Hypothesis hQ : 1 / 2 < Q.
Hypothesis htau : dtau p = 2 * Q / w.
Hypothesis hsig : dsig p ^ 2 = S * w * Q.

Lemma eta_pos : 0 < eta.
Proof.
have h : 1 / (4 * Q ^ 2) < 1.
  apply: (Rmult_lt_reg_r (4 * Q ^ 2)); first nra.
  have -> : 1 / (4 * Q ^ 2) * (4 * Q ^ 2) = 1 by field; lra.
  nra.
by apply: sqrt_lt_R0; rewrite Rabs_pos_eq; lra.
Qed.
Lemma a_pos : 0 < a.
Proof. have := eta_pos => h; apply: Rdiv_lt_0_compat; nra. Qed.

(** The covariance on nonnegative lags, extended smoothly, and its first two antiderivatives. *)
Definition c := eta * w.
Definition g := S * Q / eta.
Definition ks (r : R) : R := g * c * (exp (- a * (c * r)) * (cos (c * r) + a * sin (c * r))).
Definition K1 (r : R) : R := g / (1 + a ^ 2) * I0 p (c * r).
Definition K2 (r : R) : R := - (g / (1 + a ^ 2)) * (f1 p (c * r) - f2 p (c * r)).
Lemma c_pos : 0 < c. Proof. have := eta_pos; rewrite /c => h; nra. Qed.
Lemma a2_pos : 0 < 1 + a ^ 2. Proof. have := a_pos => h; nra. Qed.

Lemma ks_cov r : ks r = cov_sho_under w Q (dsig p) r.
Proof.
have he := eta_pos; rewrite /ks /cov_sho_under hsig /g /c -[Cov.eta Q]/eta.
have -> : - a * (eta * w * r) = - w * r / (2 * Q) by rewrite /d_a; field; lra.
have -> : S * Q / eta * (eta * w) = S * w * Q by field; lra.
have -> : 1 / (2 * eta * Q) = a by rewrite /d_a; field; lra.
by ring.
Qed.
Lemma latent_ks r : latent_process p r = ks r.
Proof.
rewrite ks_cov /latent_process /cov_sho_under htau.
by have -> : - r / (2 * Q / w) = - w * r / (2 * Q) by field; lra.
Qed.

Lemma K1_der r : is_derive K1 r (ks r).
Proof.
rewrite /K1 /I0 /ks; auto_derive => //.
have h := a2_pos; field; lra.
Qed.
Lemma K2_der r : is_derive K2 r (K1 r).
Proof.
have h := a2_pos; have hc := c_pos; rewrite /K2 /K1 /I0 /f1 /f2 -/c; auto_derive => //.
field; lra.
Qed.
Lemma ks_c x : continuous ks x.
Proof. apply: ex_derive_continuous; rewrite /ks; auto_derive; done. Qed.
Lemma K1_c x : continuous K1 x.
Proof. by apply: ex_derive_continuous; exists (ks x); apply: K1_der. Qed.

Definition kap (r : R) : R := cov_sho_under w Q (dsig p) (Rabs r).
Lemma kapE r : kap r = ks (Rabs r). Proof. by rewrite ks_cov. Qed.
Lemma kap_c x : continuous kap x.
Proof.
apply: (continuous_ext (fun r => ks (Rabs r))); first by move=> r; rewrite kapE.
by apply: continuous_comp; [exact: continuous_Rabs|exact: ks_c].
Qed.
Lemma kap_even r : kap (- r) = kap r. Proof. by rewrite /kap Rabs_Ropp. Qed.

Lemma k1_K1 r : 0 <= r -> k1 kap r = K1 r - K1 0.
Proof.
move=> r0; rewrite /k1 (RInt_ext _ ks).
  exact: (RInt_der (f := K1) 0 r K1_der ks_c).
by move=> x; rewrite Rmin_left // Rmax_right // => -[x1 x2]; rewrite kapE Rabs_pos_eq //; lra.
Qed.
Lemma k2_K2 r : 0 <= r -> k2 kap r = K2 r - K2 0 - r * K1 0.
Proof.
move=> r0; rewrite /k2 (RInt_ext _ (fun x => K1 x - K1 0)); last first.
  by move=> x; rewrite Rmin_left // Rmax_right // => -[x1 x2]; rewrite k1_K1 //; lra.
rewrite (RInt_minus K1 (fun=> K1 0)); first last.
- exact: ex_RInt_const.
- exact: cont_RInt K1_c.
rewrite (RInt_der (f := K2) 0 r K2_der K1_c) RInt_const /minus /plus /opp /scal /= /mult /=.
by inR; ring.
Qed.
Lemma K1_0 : K1 0 = - (2 * a * (g / (1 + a ^ 2))).
Proof. rewrite /K1 /I0 !Rmult_0_r sin_0 cos_0 exp_0; ring. Qed.

Notation k1 := (k1 kap). Notation k2 := (k2 kap).

(** The three helper integrals, unnormalized. *)
Lemma separate D d1 d2 : 0 < d1 -> 0 < d2 -> (d1 + d2) / 2 <= D ->
  integrated_separate p D d1 d2 * (d1 * d2) =
  k2 (D + (d1 + d2) / 2) - k2 (D + (d2 - d1) / 2) - k2 (D + (d1 - d2) / 2) + k2 (D - (d1 + d2) / 2).
Proof.
move=> h1 h2 hD; rewrite !k2_K2; try lra.
have he := eta_pos; have hc := c_pos; have ha := a2_pos.
rewrite /integrated_separate /I1 /I2 -!/c.
have -> : c * ((d1 + d2) / 2 + D) = c * (D + (d1 + d2) / 2) by ring.
have -> : c * ((d1 + d2) / 2 + D - d1) = c * (D + (d2 - d1) / 2) by field.
have -> : c * ((d1 - d2) / 2 + D) = c * (D + (d1 - d2) / 2) by field.
have -> : c * ((d1 - d2) / 2 + D - d1) = c * (D - (d1 + d2) / 2) by field.
rewrite /K2 /g.
move: (f1 p _) (f2 p _) (f1 p _) (f2 p _) (f1 p _) (f2 p _) (f1 p _) (f2 p _) (f1 p _) (f2 p _) => *.
move: (K1 0) => K; field; lra.
Qed.
Lemma overlap d : 0 < d -> integrated_overlap p d * d ^ 2 = 2 * k2 d.
Proof.
move=> hd; rewrite k2_K2; last lra.
have he := eta_pos; have hc := c_pos; have ha := a2_pos.
rewrite /integrated_overlap /I1 /I2 -!/c K1_0 /K2 /g Rmult_0_r.
move: (f1 p _) (f2 p _) (f1 p _) (f2 p _) => *.
field; lra.
Qed.
Lemma single D d : 0 < d -> d / 2 <= D ->
  integrated_single p D d * d = k1 (D + d / 2) - k1 (D - d / 2).
Proof.
move=> hd hD; rewrite !k1_K1; try lra.
have he := eta_pos; have hc := c_pos; have ha := a2_pos.
rewrite /integrated_single -!/c /K1 /g (Rplus_comm (d / 2)).
move: (I0 p _) (I0 p _) (I0 p _) => *.
field; lra.
Qed.

(** The average over two exposures in terms of the lag and the lengths. *)
Definition pair_avg (D d1 d2 : R) : R :=
  (k2 (D + (d1 + d2) / 2) - k2 (D + (d2 - d1) / 2) - k2 (D + (d1 - d2) / 2) + k2 (D - (d1 + d2) / 2))
  / (d1 * d2).
Lemma pair_avg_sym D d1 d2 : pair_avg D d1 d2 = pair_avg D d2 d1.
Proof. by rewrite /pair_avg (Rplus_comm d2 d1) (Rmult_comm d2 d1); congr (_ / _); ring. Qed.

Lemma k2e x y : x = - y -> k2 x = k2 y.
Proof. by move=> ->; apply: (k2_even kap_c kap_even). Qed.
Lemma mean_pair t1 d1 i1 t2 d2 i2 : 0 < d1 -> 0 < d2 ->
  mean_cov kap (CX t1 d1 i1) (CX t2 d2 i2) = pair_avg (Rabs (t1 - t2)) d1 d2.
Proof.
move=> h1 h2; rewrite (mean_cov_LL kap_c) // /begin /finish /pair_avg /=.
rewrite /Rabs; case: Rcase_abs => h.
- rewrite (k2e (x := t1 + d1 / 2 - (t2 - d2 / 2)) (y := - (t1 - t2) - (d1 + d2) / 2)); last by field.
  rewrite (k2e (x := t1 - d1 / 2 - (t2 - d2 / 2)) (y := - (t1 - t2) + (d1 - d2) / 2)); last by field.
  rewrite (k2e (x := t1 + d1 / 2 - (t2 + d2 / 2)) (y := - (t1 - t2) + (d2 - d1) / 2)); last by field.
  rewrite (k2e (x := t1 - d1 / 2 - (t2 + d2 / 2)) (y := - (t1 - t2) + (d1 + d2) / 2)); last by field.
  by field; lra.
- have -> : t1 + d1 / 2 - (t2 - d2 / 2) = t1 - t2 + (d1 + d2) / 2 by field.
  have -> : t1 - d1 / 2 - (t2 - d2 / 2) = t1 - t2 + (d2 - d1) / 2 by field.
  have -> : t1 + d1 / 2 - (t2 + d2 / 2) = t1 - t2 + (d1 - d2) / 2 by field.
  have -> : t1 - d1 / 2 - (t2 + d2 / 2) = t1 - t2 - (d1 + d2) / 2 by field.
  by field; lra.
Qed.

(** Cases 1 to 4 of evaluate. *)
Lemma case1_ok d : 0 < d -> integrated_overlap p d = pair_avg 0 d d.
Proof.
move=> hd; apply: (Rmult_eq_reg_r (d ^ 2)); last by have := pow_lt d 2 hd; lra.
rewrite overlap // /pair_avg.
have -> : 0 + (d + d) / 2 = d by field.
have -> : 0 + (d - d) / 2 = 0 by field.
rewrite (k2e (x := 0 - (d + d) / 2) (y := d)); last by field.
by rewrite k2_0; field; lra.
Qed.
Lemma case2_ok D d1 d2 : 0 < d1 -> 0 < d2 -> (d1 + d2) / 2 <= D ->
  integrated_separate p D d1 d2 = pair_avg D d1 d2.
Proof.
move=> h1 h2 hD; rewrite /pair_avg -(separate h1 h2 hD); field; lra.
Qed.
Lemma case3_ok D d1 d2 : 0 < d2 -> d2 <= d1 -> 0 <= D -> D < (d1 + d2) / 2 ->
  d1 < (d1 - d2) / 2 + D + d2 ->
  calc_case3 p 0 d1 ((d1 - d2) / 2 + D) ((d1 - d2) / 2 + D + d2) d1 d2 = pair_avg D d1 d2.
Proof.
move=> h2 h12 hD ho hc; rewrite /calc_case3.
set p3 := (d1 - d2) / 2 + D; set p4 := p3 + d2.
case: ReqbP => [e|_]; first by rewrite /p3 in e; lra.
have hp3 : 0 < p3 by rewrite /p3; lra.
have hp32 : p3 < d1 by rewrite /p3; lra.
have hp24 : d1 < p4 by rewrite /p4 /p3; lra.
rewrite /where_ /pair_avg separate; try (rewrite /p4; lra).
rewrite separate; try (rewrite /p4 /p3 in hp24 *; lra).
rewrite overlap; last lra.
congr (_ / _).
have -> : p3 + (p4 - p3) / 2 - (0 + (p3 - 0) / 2) + (p3 - 0 + (p4 - p3)) / 2 = D + (d1 + d2) / 2.
  by rewrite /p4 /p3; field.
have -> : p3 + (p4 - p3) / 2 - (0 + (p3 - 0) / 2) + (p4 - p3 - (p3 - 0)) / 2 = d2 by rewrite /p4 /p3; field.
have -> : p3 + (p4 - p3) / 2 - (0 + (p3 - 0) / 2) + (p3 - 0 - (p4 - p3)) / 2 = D + (d1 - d2) / 2.
  by rewrite /p4 /p3; field.
have -> : p3 + (p4 - p3) / 2 - (0 + (p3 - 0) / 2) - (p3 - 0 + (p4 - p3)) / 2 = 0 by rewrite /p4 /p3; field.
have -> : d1 + (p4 - d1) / 2 - (p3 + (d1 - p3) / 2) + (d1 - p3 + (p4 - d1)) / 2 = d2 by rewrite /p4 /p3; field.
have -> : d1 + (p4 - d1) / 2 - (p3 + (d1 - p3) / 2) + (p4 - d1 - (d1 - p3)) / 2 = D + (d2 - d1) / 2.
  by rewrite /p4 /p3; field.
have -> : d1 + (p4 - d1) / 2 - (p3 + (d1 - p3) / 2) + (d1 - p3 - (p4 - d1)) / 2 = d1 - p3 by rewrite /p4 /p3; field.
have -> : d1 + (p4 - d1) / 2 - (p3 + (d1 - p3) / 2) - (d1 - p3 + (p4 - d1)) / 2 = 0 by rewrite /p4 /p3; field.
rewrite (k2e (x := D - (d1 + d2) / 2) (y := d1 - p3)); last by rewrite /p3; field.
by rewrite k2_0; ring.
Qed.
Lemma case4_ok D d1 d2 : 0 < d2 -> d2 <= d1 -> 0 <= D -> ~ (D = 0 /\ d1 = d2) ->
  (d1 - d2) / 2 + D + d2 <= d1 ->
  calc_case4 p 0 d1 ((d1 - d2) / 2 + D) ((d1 - d2) / 2 + D + d2) d1 d2 = pair_avg D d1 d2.
Proof.
move=> h2 h12 hD hn hc; rewrite /calc_case4.
set p3 := (d1 - d2) / 2 + D; set p4 := p3 + d2.
have hp3 : 0 < p3.
  have h : 0 <= p3 by rewrite /p3; lra.
  by case: h => // e; case: hn; rewrite /p3 in e; lra.
case: (ReqbP 0 p3) => [e|_]; first lra.
rewrite {1}/where_ /pair_avg separate; try (rewrite /p4; lra).
rewrite overlap //.
have -> : p3 + (p4 - p3) / 2 - (0 + (p3 - 0) / 2) + (p3 - 0 + (p4 - p3)) / 2 = D + (d1 + d2) / 2.
  by rewrite /p4 /p3; field.
have -> : p3 + (p4 - p3) / 2 - (0 + (p3 - 0) / 2) + (p4 - p3 - (p3 - 0)) / 2 = d2 by rewrite /p4 /p3; field.
have -> : p3 + (p4 - p3) / 2 - (0 + (p3 - 0) / 2) + (p3 - 0 - (p4 - p3)) / 2 = D + (d1 - d2) / 2.
  by rewrite /p4 /p3; field.
have -> : p3 + (p4 - p3) / 2 - (0 + (p3 - 0) / 2) - (p3 - 0 + (p4 - p3)) / 2 = 0 by rewrite /p4 /p3; field.
rewrite (k2e (x := D - (d1 + d2) / 2) (y := d1 - p3)); last by rewrite /p3; field.
rewrite (k2e (x := D + (d2 - d1) / 2) (y := d1 - p4)); last by rewrite /p4 /p3; field.
case: (ReqbP d1 p4) => [e|he]; rewrite /where_; congr (_ / _).
- have -> : d1 - p3 = d2 by rewrite /p4 in e; lra.
  have -> : d1 - p4 = 0 by lra.
  by rewrite k2_0; ring.
- have hp4 : p4 < d1 by rewrite -/p4 in hc; lra.
  rewrite separate; try lra; try (rewrite /p4; lra).
  have -> : p4 + (d1 - p4) / 2 - (p3 + (p4 - p3) / 2) + (d1 - p4 + (p4 - p3)) / 2 = d1 - p3 by field.
  have -> : p4 + (d1 - p4) / 2 - (p3 + (p4 - p3) / 2) + (p4 - p3 - (d1 - p4)) / 2 = d2 by rewrite /p4; field.
  have -> : p4 + (d1 - p4) / 2 - (p3 + (p4 - p3) / 2) + (d1 - p4 - (p4 - p3)) / 2 = d1 - p4 by field.
  have -> : p4 + (d1 - p4) / 2 - (p3 + (p4 - p3) / 2) - (d1 - p4 + (p4 - p3)) / 2 = 0 by field.
  by rewrite k2_0; ring.
Qed.

(** The mean over one exposure. *)
Definition point_avg (D d : R) : R := (k1 (D + d / 2) - k1 (D - d / 2)) / d.
Lemma k1e x y : x = - y -> k1 x = - k1 y.
Proof. by move=> ->; apply: (k1_odd kap_c kap_even). Qed.
Lemma mean_point_l t1 d1 i1 t2 i2 : 0 < d1 ->
  mean_cov kap (CX t1 d1 i1) (CX t2 0 i2) = point_avg (Rabs (t1 - t2)) d1.
Proof.
move=> h1; rewrite (mean_cov_LP kap_c) //=; last exact: Rlt_irrefl.
rewrite /begin /finish /point_avg /=.
rewrite /Rabs; case: Rcase_abs => h.
- rewrite (k1e (x := t1 + d1 / 2 - t2) (y := - (t1 - t2) - d1 / 2)); last by field.
  rewrite (k1e (x := t1 - d1 / 2 - t2) (y := - (t1 - t2) + d1 / 2)); last by field.
  by field; lra.
- have -> : t1 + d1 / 2 - t2 = t1 - t2 + d1 / 2 by field.
  by have -> : t1 - d1 / 2 - t2 = t1 - t2 - d1 / 2 by field.
Qed.
Lemma full_single D d : 0 <= D -> 0 < d -> / 10 ^ 4 <= d / timescale p ->
  full_single_integral p D d = point_avg D d.
Proof.
move=> hD hd ht; rewrite /full_single_integral.
have h4 : 0 < / 10 ^ 4 by apply: Rinv_0_lt_compat; lra.
have hr : Rabs (d / timescale p) = d / timescale p by apply: Rabs_pos_eq; lra.
rewrite hr; case: (RltbP (d / timescale p)) => [h|_]; first by case: (Rlt_irrefl _ (Rle_lt_trans _ _ _ ht h)).
rewrite /= !andbT.
case: RlebP => h1; case: RltbP => h2; rewrite /where_ //=; try lra.
- by rewrite /point_avg -single //; first (field; lra); lra.
- rewrite /calc_integral /point_avg !single; try lra.
  congr (_ / _).
  have -> : (d / 2 + D) / 2 + (d / 2 + D) / 2 = D + d / 2 by field.
  have -> : (d / 2 + D) / 2 - (d / 2 + D) / 2 = 0 by field.
  have -> : (d - (d / 2 + D)) / 2 + (d - (d / 2 + D)) / 2 = d / 2 - D by field.
  have -> : (d - (d / 2 + D)) / 2 - (d - (d / 2 + D)) / 2 = 0 by field.
  rewrite (k1e (x := D - d / 2) (y := d / 2 - D)); last by ring.
  by rewrite k1_0; ring.
Qed.
End Sho.
