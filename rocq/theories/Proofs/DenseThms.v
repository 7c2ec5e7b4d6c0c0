(** evaluate of kernels/dense.py. *)
From Coq Require Import Reals Lra.
From mathcomp Require Import all_ssreflect.
From Coquelicot Require Import Coquelicot.
From Verif.Prelude Require Import Rstruct MxCalc.
From Verif.Model Require Import BaseKernels Kernel Dense.
From Verif.Spec Require Import Cov IntCov DenseCov.
From Verif.Proofs Require Import LagInt DenseSho.
Set Implicit Arguments.
Unset Strict Implicit.
Unset Printing Implicit Defensive.
Local Open Scope R_scope.

(** Dispatch *)
Lemma dispatch_one p D d1 d2 : count id (dispatch p D d1 d2) = 1%N.
Proof.
rewrite /dispatch; set u := Rltb _ (/ 10 ^ 8); set v := Rltb (Rabs (d2 / _)) _.
set e := _ && Reqb d1 d2.
have h1 : Rltb D ((d1 + d2) / 2) = ~~ Rleb ((d1 + d2) / 2) D by case: RltbP; case: RlebP => //=; lra.
have h2 : Rltb d1 ((d1 - d2) / 2 + D + d2) = ~~ Rleb ((d1 - d2) / 2 + D + d2) d1.
  by case: RltbP; case: RlebP => //=; lra.
rewrite h1 h2; move: u v e (Rleb _ _) (Rleb _ _).
by case; case; case; case; case.
Qed.

Lemma evaluate_sym p X1 X2 : integrated_evaluate p X1 X2 = integrated_evaluate p X2 X1.
Proof.
rewrite /integrated_evaluate; case: X1 => [t1|t1 i1|t1 d1 i1]; case: X2 => [t2|t2 i2|t2 d2 i2] //=.
- by rewrite (Rabs_minus_sym t2).
- by rewrite (Rabs_minus_sym t2).
- by rewrite (Rabs_minus_sym t2) (Rmax_comm d2) (Rmin_comm d2).
Qed.

(** The parameters *)
Definition good (p : dense_sho) : Prop :=
  [/\ 0 < dw p, 1 / 2 < dQ p, dtau p = 2 * dQ p / dw p & dsig p ^ 2 = dS p * dw p * dQ p].

Section Value.
Variable p : dense_sho.
Hypothesis hp : good p.
Let hw : 0 < dw p. Proof. by case: hp. Qed.
Let hQ : 1 / 2 < dQ p. Proof. by case: hp. Qed.
Let htau : dtau p = 2 * dQ p / dw p. Proof. by case: hp. Qed.
Let hsig : dsig p ^ 2 = dS p * dw p * dQ p. Proof. by case: hp. Qed.
Notation kap := (kap p).

Lemma sho_kap r : sho_cov (dw p) (dQ p) (dsig p) r = kap r.
Proof. by rewrite /sho_cov; case: Rlt_dec => //; lra. Qed.
Lemma averaged t1 d1 t2 d2 :
  averaged_sho (dw p) (dQ p) (dsig p) t1 d1 t2 d2 = mean_cov kap (CX t1 d1 0) (CX t2 d2 0).
Proof. exact: mean_cov_ext sho_kap. Qed.

Lemma T_pos : 0 < timescale p.
Proof. by apply: Rdiv_lt_0_compat => //; have := PI_RGT_0; lra. Qed.

Lemma ratio_abs d : 0 <= d -> Rabs (d / timescale p) = d / timescale p.
Proof. by move=> h; apply: Rabs_pos_eq; apply: Rmult_le_pos => //; apply/Rlt_le/Rinv_0_lt_compat/T_pos. Qed.
Lemma tiny0 n : Rltb (Rabs (0 / timescale p)) (/ 10 ^ n).
Proof.
apply/RltbP; rewrite ratio_abs; last exact: Rle_refl.
rewrite /Rdiv Rmult_0_l; apply: Rinv_0_lt_compat; apply: pow_lt; lra.
Qed.
Lemma not_tiny d n : 0 < d -> / 10 ^ n <= d / timescale p -> Rltb (Rabs (d / timescale p)) (/ 10 ^ n) = false.
Proof.
move=> h1 h2; apply/RltbP; rewrite ratio_abs; last lra.
by move=> h3; case: (Rlt_irrefl _ (Rle_lt_trans _ _ _ h2 h3)).
Qed.

Let val (D d1 d2 : R) : R :=
  let p3 := (d1 - d2) / 2 + D in
  let p4 := p3 + d2 in
  let c := nth false (dispatch p D d1 d2) in
  where_ (c 5%N) (calc_case4 p 0 d1 p3 p4 d1 d2)
  (where_ (c 4%N) (calc_case3 p 0 d1 p3 p4 d1 d2)
  (where_ (c 3%N) (integrated_separate p D d1 d2)
  (where_ (c 2%N) (integrated_overlap p d1)
  (where_ (c 1%N) (full_single_integral p D d1)
  (where_ (c 0%N) (latent_process p D) 0))))).

Lemma val_00 D : val D 0 0 = latent_process p D.
Proof. by rewrite /val /dispatch tiny0 /= !andbF. Qed.
Lemma val_d0 D d : 0 <= D -> 0 < d -> / 10 ^ 8 <= d / timescale p -> / 10 ^ 4 <= d / timescale p ->
  val D d 0 = point_avg p D d.
Proof.
move=> hD hd h8 h4; rewrite /val /dispatch tiny0 not_tiny //= !andbF /=.
exact: full_single.
Qed.
Lemma val_dd D d1 d2 : 0 <= D -> 0 < d2 -> d2 <= d1 -> / 10 ^ 8 <= d1 / timescale p ->
  / 10 ^ 8 <= d2 / timescale p -> val D d1 d2 = pair_avg p D d1 d2.
Proof.
move=> hD hd2 h12 h1 h2; rewrite /val /dispatch !not_tiny //; last lra.
cbv zeta; rewrite [nth]lock /= -lock /= !andbT.
case: (ReqbP D 0) => eD; case: (ReqbP d1 d2) => ed /=; rewrite ?andbF /=.
- by rewrite eD -ed; apply: case1_ok => //; lra.
all: case: (RlebP ((d1 + d2) / 2) D) => hs; case: (RltbP D ((d1 + d2) / 2)) => ho //=; try lra.
all: try (by apply: case2_ok => //; lra).
all: case: (RltbP d1 _) => h3; case: (RlebP _ d1) => h4 //=; try lra.
all: try (by apply: case3_ok => //; lra).
all: by apply: case4_ok => // -[].
Qed.

Lemma evaluate_val t1 d1 i1 t2 d2 i2 : integrated_evaluate p (D3 t1 d1 i1) (D3 t2 d2 i2)
  = inr (val (Rabs (t1 - t2)) (Rmax d1 d2) (Rmin d1 d2)).
Proof. by []. Qed.

Lemma evaluate_ok t1 d1 i1 t2 d2 i2 : lengths_kept (2 * PI / dw p) d1 d2 ->
  integrated_evaluate p (D3 t1 d1 i1) (D3 t2 d2 i2)
  = inr (averaged_sho (dw p) (dQ p) (dsig p) t1 d1 t2 d2).
Proof.
rewrite -/(timescale p) averaged evaluate_val => -[h1 [h2 [h3 h4]]]; congr inr.
have hD := Rabs_pos (t1 - t2).
have nl : ~ 0 < 0 by exact: Rlt_irrefl.
case: h1 => [e1|[p1 l1]]; case: h2 => [e2|[p2 l2]].
- subst d1 d2; rewrite Rmax_left ?Rmin_left; try exact: Rle_refl.
  by rewrite val_00 (mean_cov_PP kap) // kapE // latent_ks.
- subst d1; case: (h3 erefl) => [|l]; first lra.
  rewrite Rmax_right ?Rmin_left; try lra.
  rewrite val_d0 // (mean_cov_sym (kap_c hQ hsig) (@kap_even p)) mean_point_l //.
  by rewrite Rabs_minus_sym.
- subst d2; case: (h4 erefl) => [|l]; first lra.
  by rewrite Rmax_left ?Rmin_right; try lra; rewrite val_d0 // mean_point_l.
- rewrite mean_pair //; case: (Rle_dec d2 d1) => h.
  + by rewrite Rmax_left ?Rmin_right // val_dd.
  + by rewrite Rmax_right ?Rmin_left; try lra; rewrite val_dd //; try lra; rewrite pair_avg_sym.
Qed.
Lemma evaluate_times t1 t2 : integrated_evaluate p (D1 t1) (D1 t2)
  = inr (sho_cov (dw p) (dQ p) (dsig p) (t1 - t2)).
Proof.
rewrite [LHS](_ : _ = inr (val (Rabs (t1 - t2)) 0 0)); last first.
  by rewrite /integrated_evaluate /= Rmax_left ?Rmin_left //; exact: Rle_refl.
by rewrite val_00 sho_kap kapE // latent_ks.
Qed.
Lemma evaluate_pair t1 i1 t2 i2 : integrated_evaluate p (D2 t1 i1) (D2 t2 i2)
  = integrated_evaluate p (D1 t1) (D1 t2).
Proof. by []. Qed.
Lemma sho_evaluate t1 t2 : dense_sho_evaluate p (D1 t1) (D1 t2)
  = inr (sho_cov (dw p) (dQ p) (dsig p) (t1 - t2)).
Proof. by rewrite sho_kap kapE // -(latent_ks hw hQ htau). Qed.
End Value.

Lemma init_SwQ S w Q rho tau sig p : 0 < S -> 0 < w -> 1 / 2 < Q ->
  dense_init (Some S) (Some w) (Some Q) rho tau sig = inr p ->
  [/\ good p, dw p = w, dQ p = Q & dsig p = sqrt (S * w * Q)].
Proof.
move=> hS hw hQ [<-]; split=> //; split=> //=.
have h : 0 <= S * w * Q by apply: Rmult_le_pos; [apply: Rmult_le_pos|]; lra.
by rewrite Rmult_1_r sqrt_sqrt.
Qed.
Lemma init_rts rho tau sig p : 0 < rho -> rho / (2 * PI) < tau ->
  dense_init None None None (Some rho) (Some tau) (Some sig) = inr p ->
  [/\ good p, dw p = 2 * PI / rho, dQ p = PI * tau / rho & dsig p = sig].
Proof.
have hpi := PI_RGT_0; move=> hr ht [<-].
have ht0 : 0 < tau.
  by apply: (Rlt_trans _ (rho / (2 * PI))) => //; apply: Rdiv_lt_0_compat; lra.
have e : tau * (2 * PI / rho) / 2 = PI * tau / rho by field; lra.
have hq : 1 / 2 < PI * tau / rho.
  have -> : 1 / 2 = PI * (rho / (2 * PI)) / rho by field; lra.
  by apply: Rmult_lt_compat_r; [apply: Rinv_0_lt_compat|apply: Rmult_lt_compat_l].
split=> //=; split=> /=; rewrite ?e //.
- by apply: Rdiv_lt_0_compat; lra.
- by field; lra.
- by field; lra.
Qed.

Lemma thm_SwQ S w Q rho tau sig p t1 d1 i1 t2 d2 i2 : 0 < S -> 0 < w -> 1 / 2 < Q ->
  dense_init (Some S) (Some w) (Some Q) rho tau sig = inr p -> lengths_kept (2 * PI / w) d1 d2 ->
  integrated_evaluate p (D3 t1 d1 i1) (D3 t2 d2 i2) = inr (averaged_sho w Q (sqrt (S * w * Q)) t1 d1 t2 d2).
Proof.
move=> hS hw hQ /(init_SwQ hS hw hQ)[gp e1 e2 e3]; rewrite -e3 -e1 -e2 => h.
exact: evaluate_ok.
Qed.
Lemma thm_rts rho tau sig p t1 d1 i1 t2 d2 i2 : 0 < rho -> rho / (2 * PI) < tau ->
  dense_init None None None (Some rho) (Some tau) (Some sig) = inr p -> lengths_kept rho d1 d2 ->
  integrated_evaluate p (D3 t1 d1 i1) (D3 t2 d2 i2)
  = inr (averaged_sho (2 * PI / rho) (PI * tau / rho) sig t1 d1 t2 d2).
Proof.
move=> hr ht /(init_rts hr ht)[gp e1 e2 e3]; rewrite -e3 -e1 -e2 => h.
apply: evaluate_ok => //; rewrite e1.
by have -> : 2 * PI / (2 * PI / rho) = rho by have := PI_RGT_0 => ?; field; lra.
Qed.
Lemma thm_sho S w Q rho tau sig p t1 t2 : 0 < S -> 0 < w -> 1 / 2 < Q ->
  dense_init (Some S) (Some w) (Some Q) rho tau sig = inr p ->
  dense_sho_evaluate p (D1 t1) (D1 t2) = inr (sho_cov w Q (sqrt (S * w * Q)) (t1 - t2)) /\
  integrated_evaluate p (D1 t1) (D1 t2) = inr (sho_cov w Q (sqrt (S * w * Q)) (t1 - t2)).
Proof.
move=> hS hw hQ /(init_SwQ hS hw hQ)[gp e1 e2 e3]; rewrite -e3 -e1 -e2.
by split; [exact: sho_evaluate|exact: evaluate_times].
Qed.
