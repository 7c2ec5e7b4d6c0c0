(** Where kernels/dense.py departs from its documentation. *)
From Coq Require Import Reals Lra.
From mathcomp Require Import all_ssreflect.
From Coquelicot Require Import Coquelicot.
From Verif.Prelude Require Import Rstruct MxCalc.
From Verif.Model Require Import BaseKernels Kernel Dense.
From Verif.Spec Require Import Cov IntCov DenseCov.
From Verif.Proofs Require Import LagInt DenseSho DenseThms.
Set Implicit Arguments.
Unset Strict Implicit.
Unset Printing Implicit Defensive.
Local Open Scope R_scope.

(** S = 1, w = sqrt 2, Q = 1 / sqrt 2: eta w = 1, a = 1, sigma = 1. *)
Definition p0 : dense_sho :=
  {| dS := 1; dw := sqrt 2; dQ := sqrt (1 / 2); drho := 2 * PI / sqrt 2;
     dtau := 2 * sqrt (1 / 2) / sqrt 2; dsig := sqrt (1 * sqrt 2 * sqrt (1 / 2)) |}.
Lemma p0_init : dense_init (Some 1) (Some (sqrt 2)) (Some (sqrt (1 / 2))) None None None = inr p0.
Proof. by []. Qed.
Lemma q_sq : sqrt (1 / 2) * sqrt (1 / 2) = 1 / 2. Proof. by apply: sqrt_sqrt; lra. Qed.
Lemma q_gt : 1 / 2 < sqrt (1 / 2).
Proof.
have h := q_sq; have h0 := sqrt_pos (1 / 2); nra.
Qed.
Lemma w_pos : 0 < sqrt 2. Proof. by apply: sqrt_lt_R0; lra. Qed.
Lemma p0_good : good p0.
Proof. by have [] := init_SwQ Rlt_0_1 w_pos q_gt p0_init. Qed.
Lemma wq : sqrt 2 * sqrt (1 / 2) = 1.
Proof.
rewrite -sqrt_mult; try lra.
by rewrite (_ : 2 * (1 / 2) = 1); [exact: sqrt_1|field].
Qed.
Lemma p0_sig : dsig p0 = 1.
Proof. by rewrite /= Rmult_1_l wq sqrt_1. Qed.
Lemma p0_eta : d_eta p0 = sqrt (1 / 2).
Proof.
rewrite /d_eta /=; congr sqrt.
have -> : sqrt (1 / 2) * (sqrt (1 / 2) * 1) = 1 / 2 by rewrite Rmult_1_r q_sq.
have -> : 1 - 1 / (4 * (1 / 2)) = 1 / 2 by field.
by rewrite Rabs_pos_eq; lra.
Qed.
Lemma p0_a : d_a p0 = 1.
Proof. by rewrite /d_a p0_eta /= Rmult_assoc q_sq; field. Qed.
Lemma p0_c : d_eta p0 * dw p0 = 1.
Proof. by rewrite p0_eta /= Rmult_comm wq. Qed.
Lemma p0_ks r : ks p0 r = exp (- r) * (cos r + sin r).
Proof.
rewrite /ks /g /c p0_c p0_a p0_eta /= Rmult_1_l.
have h := q_gt; rewrite (_ : sqrt (1 / 2) / sqrt (1 / 2) = 1); last by field; lra.
by rewrite !Rmult_1_l (_ : -1 * r = - r); last ring.
Qed.
Lemma p0_latent0 : latent_process p0 0 = 1.
Proof.
have [h1 h2 h3 h4] := p0_good.
by rewrite (latent_ks h1 h2 h3 h4) p0_ks Ropp_0 exp_0 cos_0 sin_0; ring.
Qed.

(** A pair (t, delta) is read as (t, instid). *)
Lemma p0_overlap : integrated_overlap p0 PI < 1.
Proof.
have hpi := PI_RGT_0.
have [h1 h2 h3 h4] := p0_good.
rewrite /integrated_overlap /I1 /I2 /f1 /f2 p0_c p0_a p0_eta /= !Rmult_1_l !Rmult_1_r.
rewrite Rmult_0_r sin_0 cos_0 exp_0 sin_PI cos_PI.
have hq := q_gt.
have he : 0 < exp (Ropp 1 * PI) by exact: exp_pos.
have -> : 2 * sqrt (1 / 2) / (PI * PI * sqrt (1 / 2) * (1 + 1)) = / (PI * PI) by field; lra.
apply: (Rmult_lt_reg_l (PI * PI)); first nra.
rewrite -Rmult_assoc Rinv_r; last nra.
move: (exp _) he => e he; have hs := Rle_0_sqr (PI - 1); rewrite /Rsqr in hs.
have h : PI * PI = (PI - 1) * (PI - 1) + 2 * PI - 1 by ring.
by rewrite h; lra.
Qed.
Lemma pair_refuted : exists S w Q p t1 d1 t2 d2, 0 < S /\ 0 < w /\ 1 / 2 < Q /\
  dense_init (Some S) (Some w) (Some Q) None None None = inr p /\ lengths_kept (2 * PI / w) d1 d2 /\
  integrated_evaluate p (D2 t1 d1) (D2 t2 d2) <> inr (averaged_sho w Q (sqrt (S * w * Q)) t1 d1 t2 d2).
Proof.
have hpi := PI_RGT_0; have [h1 h2 h3 h4] := p0_good.
have hl : lengths_kept (2 * PI / sqrt 2) PI PI.
  have hw : 1 <= sqrt 2 by rewrite -{1}sqrt_1; apply: sqrt_le_1; lra.
  have e : PI / (2 * PI / sqrt 2) = sqrt 2 / 2 by field; lra.
  have h : / 10 ^ 8 <= PI / (2 * PI / sqrt 2) by rewrite e; lra.
  by split; [right|split; [right|split; lra]].
exists 1, (sqrt 2), (sqrt (1 / 2)), p0, 0, PI, 0, PI.
do 5 (split; first by [exact: Rlt_0_1|exact: w_pos|exact: q_gt|exact: p0_init|exact: hl]).
rewrite evaluate_pair -[0%R]/(0%R) (evaluate_times p0_good) => -[].
rewrite (averaged p0_good) mean_pair // Rminus_0_r Rabs_R0 -case1_ok //.
rewrite (sho_kap p0_good) kapE // Rabs_R0 -(latent_ks h1 h2 h3 h4) p0_latent0.
by have := p0_overlap; lra.
Qed.

(** Very short exposures are replaced by points. *)
Lemma ks_lt x : 0 < x -> x < 1 -> ks p0 x < 1.
Proof.
move=> x0 x1.
have [c [e [c0 c1]]] : exists c, ks p0 x - ks p0 0 = (-2 * (exp (- c) * sin c)) * (x - 0) /\ 0 < c < x.
  apply: (MVT_cor2 (ks p0) (fun c => -2 * (exp (- c) * sin c))) => // c _.
  apply/is_derive_Reals; apply: (is_derive_ext (fun r => exp (- r) * (cos r + sin r))).
    by move=> r; rewrite p0_ks.
  by auto_derive => //; ring.
have hpi := PI2_1.
have hs : 0 < sin c by apply: sin_gt_0; lra.
have he := exp_pos (- c).
have e0 : ks p0 0 = 1 by rewrite p0_ks Ropp_0 exp_0 cos_0 sin_0; ring.
have : 0 < exp (- c) * sin c by apply: Rmult_lt_0_compat.
by rewrite e0 in e; nra.
Qed.
Lemma k1_lt x : 0 < x -> x < 1 -> k1 (kap p0) x < x.
Proof.
move=> x0 x1; have [h1 h2 h3 h4] := p0_good.
rewrite k1_K1 //; last lra.
have [c [e [c0 c1]]] : exists c, K1 p0 x - K1 p0 0 = ks p0 c * (x - 0) /\ 0 < c < x.
  apply: (MVT_cor2 (K1 p0) (ks p0)) => // c _.
  by apply/is_derive_Reals; apply: K1_der.
have := @ks_lt c c0 ltac:(lra); rewrite e; nra.
Qed.
Lemma short_refuted : exists S w Q p t1 d1 t2 d2, 0 < S /\ 0 < w /\ 1 / 2 < Q /\
  dense_init (Some S) (Some w) (Some Q) None None None = inr p /\ 0 < d1 /\ d2 = 0 /\
  integrated_evaluate p (D3 t1 d1 0) (D3 t2 d2 0)
    <> inr (averaged_sho w Q (sqrt (S * w * Q)) t1 d1 t2 d2).
Proof.
have hpi := PI_RGT_0; have [h1 h2 h3 h4] := p0_good.
have hd : 0 < / 10 ^ 9 by apply: Rinv_0_lt_compat; lra.
exists 1, (sqrt 2), (sqrt (1 / 2)), p0, 0, (/ 10 ^ 9), 0, 0.
do 6 (split; first by [exact: Rlt_0_1|exact: w_pos|exact: q_gt|exact: p0_init|exact: hd|]).
have ht : Rltb (Rabs (/ 10 ^ 9 / timescale p0)) (/ 10 ^ 8).
  apply/RltbP; rewrite (ratio_abs p0_good); last lra.
  rewrite /timescale /=.
  have hw2 : sqrt 2 < 2.
    have h := sqrt_sqrt 2 ltac:(lra); have := w_pos; nra.
  have hpi1 : 1 < PI by have := PI2_1; lra.
  have -> : / 10 ^ 9 / (2 * PI / sqrt 2) = sqrt 2 * / 10 ^ 9 / (2 * PI) by have := w_pos => ?; field; lra.
  apply: (Rmult_lt_reg_r (2 * PI)); first lra.
  rewrite /Rdiv Rmult_assoc Rinv_l; last lra.
  by lra.
have ev : integrated_evaluate p0 (D3 0 (/ 10 ^ 9) 0) (D3 0 0 0) = inr 1.
  rewrite /integrated_evaluate /= Rmax_left ?Rmin_right; try lra.
  by rewrite /dispatch ht /= !andbF /where_ Rminus_0_r Rabs_R0 p0_latent0.
rewrite ev => -[].
rewrite (averaged p0_good) mean_point_l // /point_avg Rminus_0_r Rabs_R0 Rplus_0_l.
rewrite (k1e h2 h4 (x := 0 - / 10 ^ 9 / 2) (y := / 10 ^ 9 / 2)); last by ring.
have hk := @k1_lt (/ 10 ^ 9 / 2) ltac:(lra) ltac:(lra).
move: (k1 _ _) hk => K hk.
have hd' : / 10 ^ 9 <> 0 by lra.
move: (/ 10 ^ 9) hd' hk => D hd' hk e.
have h : K - - K = D by rewrite -[RHS]Rmult_1_l {1}e; field.
by lra.
Qed.

(** The dense SHO kernel uses cos and sin for every quality factor. *)
Lemma sho_over_refuted : exists S w Q p t1 t2, 0 < S /\ 0 < w /\ 0 < Q < 1 / 2 /\
  dense_init (Some S) (Some w) (Some Q) None None None = inr p /\
  dense_sho_evaluate p (D1 t1) (D1 t2) <> inr (sho_cov w Q (sqrt (S * w * Q)) (t1 - t2)).
Proof.
have hpi := PI_RGT_0.
have h3 : 0 < sqrt 3 by apply: sqrt_lt_R0; lra.
pose p := {| dS := 4; dw := 1; dQ := 1 / 4; drho := 2 * PI / 1; dtau := 2 * (1 / 4) / 1;
             dsig := sqrt (4 * 1 * (1 / 4)) |}.
have es : sqrt (4 * 1 * (1 / 4)) = 1 by rewrite (_ : 4 * 1 * (1 / 4) = 1); [exact: sqrt_1|field].
have ee : sqrt (Rabs (1 - 1 / (4 * (1 / 4) ^ 2))) = sqrt 3.
  congr sqrt; rewrite (_ : 1 - 1 / (4 * (1 / 4) ^ 2) = -3); last by field.
  by rewrite Rabs_left; lra.
exists 4, 1, (1 / 4), p, (2 * PI / sqrt 3), 0.
do 4 (split; first by [lra|]).
have hD : 0 <= 2 * PI / sqrt 3 by apply/Rlt_le/Rdiv_lt_0_compat; lra.
pose x := Rabs (2 * PI / sqrt 3 - 0); pose E := sqrt (Rabs (1 - 1 / (4 * (1 / 4) ^ 2))).
have ev : dense_sho_evaluate p (D1 (2 * PI / sqrt 3)) (D1 0)
  = inr (sqrt (4 * 1 * (1 / 4)) ^ 2 * exp (- x / (2 * (1 / 4) / 1))
         * (cos (E * 1 * x) + 1 / (2 * E * (1 / 4)) * sin (E * 1 * x))) by [].
have inj (u v : R) : @inr err R u = inr v -> u = v by case.
rewrite ev => /inj; rewrite /sho_cov; case: (Rlt_dec (1 / 2) (1 / 4)) => [h|hn]; first lra; rewrite [is_left _]/=.
rewrite /E /x /cov_sho_over /Cov.eta ee es Rminus_0_r (Rabs_pos_eq _ hD).
have -> : sqrt 3 * 1 * (2 * PI / sqrt 3) = 2 * PI by field; lra.
rewrite cos_2PI sin_2PI.
have -> : - (2 * PI / sqrt 3) / (2 * (1 / 4) / 1) = -1 * (2 * PI / sqrt 3) / (2 * (1 / 4)) by field; lra.
have := exp_pos (-1 * (2 * PI / sqrt 3) / (2 * (1 / 4))).
move: (exp (-1 * (2 * PI / sqrt 3) / (2 * (1 / 4)))) => e e0.
have hb : 0 < 1 / (2 * sqrt 3 * (1 / 4)) by apply: Rdiv_lt_0_compat; lra.
move: (1 / (2 * sqrt 3 * (1 / 4))) hb => b hb.
have hs : 0 < sinh (2 * PI).
  rewrite /sinh; have : exp (- (2 * PI)) < exp (2 * PI) by apply: exp_increasing; clear - hpi; lra.
  by lra.
have hc : 1 <= cosh (2 * PI).
  rewrite /cosh exp_Ropp.
  have hx := exp_pos (2 * PI); move: (exp (2 * PI)) hx => u hu.
  have : 0 <= (u - 1) ^ 2 / u by apply: Rmult_le_pos; [exact: pow2_ge_0|apply/Rlt_le/Rinv_0_lt_compat].
  have -> : (u - 1) ^ 2 / u = u + / u - 2 by field; lra.
  by lra.
have hbs : 0 < b * sinh (2 * PI) by apply: Rmult_lt_0_compat.
have : e * 1 < e * (cosh (2 * PI) + b * sinh (2 * PI)) by apply: Rmult_lt_compat_l => //; lra.
by nra.
Qed.

(** extract_leaf_kernels *)
Lemma extract_rec A (k : dtree A) : dense_extract_rec k = sum_leaves k.
Proof. by elim: k => //= k1 -> k2 ->. Qed.
Lemma extract_default A (k : dtree A) : dense_extract_leaf_kernels k false = sum_leaves k.
Proof. by case: k => //= k1 k2; rewrite !extract_rec. Qed.
Lemma extract_all_refuted : exists k : dtree nat, dense_extract_leaf_kernels k true <> all_leaves k.
Proof. by exists (DSum (DProd (DLeaf 0%N) (DLeaf 1%N)) (DLeaf 2%N)). Qed.
