(** ExpSineSquared is within a proved distance of the periodic kernel, and the distance that
    error_bound() states is exceeded. *)
From Coq Require Import Reals String Lra.
From mathcomp Require Import all_ssreflect all_algebra.
From Coquelicot Require Import Coquelicot.
From Verif.Prelude Require Import Rstruct Zmod.
From Verif.Spec Require Import Cov.
From Verif.Model Require Import Array BaseKernels IntegratedKernels Kernel.
From Verif.Proofs Require Import Evaluate Periodic.
Set Implicit Arguments.
Unset Strict Implicit.
Unset Printing Implicit Defensive.
Import Order.TTheory GRing.Theory Num.Theory.
Local Open Scope R_scope.

Lemma ring_le0 x : 0 <= x -> (0 <= x :> R)%R.
Proof. by move=> h; apply/RleP. Qed.
Lemma fact_INR_pos n : 0 < INR (fact n).
Proof. exact: INR_fact_lt_0. Qed.

Lemma uE x a : u x a = (x / 2) ^ a / INR (fact a).
Proof. by rewrite /u INR_fact pow_expr; toR. Qed.

Lemma bessel_uu j x k : 0 < x -> bessel_term j x k = u x k * u x (k + j).
Proof.
move=> x0; rewrite /bessel_term !uE.
have f1 := fact_INR_pos k; have f2 := fact_INR_pos (k + j).
have x2 : 0 < x / 2 by lra.
rewrite exp_plus /Rminus exp_plus !exp_Ropp !exp_ln //.
have -> : exp (INR (2 * k + j) * ln (x / 2)) = (x / 2) ^ (2 * k + j).
  by rewrite -Rpower_pow.
rewrite (_ : (2 * k + j = k + (k + j))%N); last by rewrite mul2n -addnn addnA.
by rewrite pow_add; field; split; apply: Rgt_not_eq.
Qed.

Lemma Ij_S j x K : 0 < x -> Ij j x K = (\sum_(0 <= k < K) u x k * u x (k + j))%R.
Proof. by move=> x0; apply: eq_bigr => k _; rewrite bessel_uu. Qed.

Lemma evaluate_periodic_sum J o l X1 X2 : (0 < J)%N ->
  evaluate (periodic_sum J o l) X1 X2
  = (\sum_(0 <= j < J) (periodic_q2 j l * cos (INR j * o * alag X1 X2))%Re)%R.
Proof.
case: J => // J _; elim: J => [|J IH].
  by rewrite big_nat1 /= evaluate_periodic.
rewrite [periodic_sum _ _ _]/= evaluate_sum big_nat_recr //= evaluate_periodic.
by congr (_ + _)%R; rewrite -IH.
Qed.

Lemma evaluate_ess_wrap s m X1 X2 : evaluate (ess_wrap s m) X1 X2 = s ^ 2 * evaluate m X1 X2.
Proof.
rewrite /evaluate /=; case: ifP => _; rewrite -?scalemxAr -!scalemxAl -?scalemxAr -?scalemxAl [LHS]mxE;
  by rewrite /sq; congr Rmult; ring.
Qed.

Lemma order_pos g order : order <> Some 0%N -> (0 < ess_order g order)%N.
Proof.
case: order => [[|J] //|_] /=.
by case: (Rleb 1 _) => //; case: (Rleb (1 / 2) _) => //; case: (Rleb (1 / 4) _).
Qed.

Lemma evaluate_ess P g s order X1 X2 : 0 < g -> order <> Some 0%N ->
  evaluate (ess_model P g s order) X1 X2
  = s ^ 2 * (S (g / 2) (2 * PI / P * alag X1 X2) 50 (ess_order g order) / exp (g / 2)).
Proof.
move=> g0 o0; rewrite /ess_model evaluate_ess_wrap evaluate_periodic_sum ?order_pos //.
have sc : 1 / ess_scale g = g / 2 by rewrite /ess_scale; field; lra.
congr Rmult; transitivity (GRing.mul (S (g / 2) (2 * PI / P * alag X1 X2) 50 (ess_order g order)) (/ exp (g / 2))); last by [].
rewrite /S [RHS]mulr_suml; apply: eq_bigr => j _.
rewrite /periodic_q2 sc Ij_S; last by lra.
have -> : INR j * ess_omega P * alag X1 X2 = INR j * (2 * PI / P * alag X1 X2).
  by rewrite /ess_omega; ring.
rewrite !RnatE; set c := cos _; move: (\sum_(0 <= _ < _) _)%R => b.
by case: eqP => _; rewrite /Rdiv; toR; simpl INR; ring.
Qed.

Lemma cov_periodicE P g s r : cov_periodic P g s r
  = s ^ 2 * (exp (g / 2 * cos (2 * PI / P * r)) / exp (g / 2)).
Proof.
rewrite /cov_periodic; congr Rmult.
rewrite /Rdiv -exp_Ropp -exp_plus; congr exp.
have -> : 2 * PI * / P * r = 2 * (PI * (r * / P)) by ring.
by rewrite cos_2a_sin; field.
Qed.

Lemma eeE x n : ee x n = x ^ n / INR (fact n).
Proof. by rewrite /ee INR_fact pow_expr; toR. Qed.

Lemma evaluate_inr P g s order nm X1 X2 :
  kernel_evaluate false (ExpSineSquared P g s order nm) X1 X2
  = inr (evaluate (ess_model P g s order) X1 X2).
Proof. exact: kernel_evaluateE. Qed.

Theorem thm_ess_error P g s order nm X1 X2 v : 0 < g -> order <> Some 0%N ->
  kernel_evaluate false (ExpSineSquared P g s order nm) X1 X2 = inr v ->
  let r := Rabs (coord_to_sortable X1 - coord_to_sortable X2) in
  let m := Nat.min (ess_order g order) 100 in
  Rabs (v - cov_periodic P g s r) <= s ^ 2 * ((g / 2) ^ m / INR (fact m)).
Proof.
move=> g0 o0; rewrite evaluate_inr => -[<-] r m.
rewrite evaluate_ess // cov_periodicE -/(alag X1 X2) -/r.
set th := 2 * PI / P * r; have e0 := exp_pos (g / 2).
have x0 : 0 <= g / 2 by lra.
have := @S_error (g / 2) th 50 (ess_order g order) (ring_le0 x0) (order_pos g o0).
have -> : minn (ess_order g order) (50 + 50) = m.
  rewrite /m; case: (leqP (ess_order g order) 100) => hJ.
    by rewrite Nat.min_l //; apply/ssrnat.leP.
  by rewrite Nat.min_r //; apply/ssrnat.leP/ltnW.
rewrite eeE Rabs_minus_sym; move: (S _ _ _ _) (exp (_ * cos _)) ((g / 2) ^ m / INR (fact m)) => a b c.
move=> h.
have -> : s ^ 2 * (a / exp (g / 2)) - s ^ 2 * (b / exp (g / 2)) = s ^ 2 * ((a - b) / exp (g / 2)).
  by field; lra.
rewrite Rabs_mult (Rabs_pos_eq (s ^ 2)); last exact: pow2_ge_0.
apply: Rmult_le_compat_l; first exact: pow2_ge_0.
rewrite /Rdiv Rabs_mult Rabs_inv (Rabs_pos_eq (exp _)); last by lra.
apply: (Rmult_le_reg_r (exp (g / 2))) => //.
by rewrite Rmult_assoc Rinv_l ?Rmult_1_r //; lra.
Qed.

Lemma ess_order_small g order : 0 < g -> g <= 2 -> order = None -> ess_order g order = 4%N.
Proof.
move=> g0 g2 -> /=; rewrite ifT //; apply/RlebP.
rewrite -sqrt_1; apply: sqrt_le_1_alt; rewrite /ess_scale.
apply: (Rmult_le_reg_r g) => //; rewrite /Rdiv Rmult_assoc Rinv_l; lra.
Qed.

Lemma exp_ge_pow n y : 0 <= y -> y ^ n / INR (fact n) <= exp y.
Proof.
move=> y0.
have y0' := ring_le0 y0.
rewrite -eeE; have l := @ee_lim y.
have l2 := is_lim_seq_const (ee y n).
apply: (is_lim_seq_le_loc _ _ _ _ _ l2 l); exists n => N /ssrnat.leP nN; apply/RleP.
rewrite (bigD1_seq n) ?iota_uniq ?mem_index_iota //= ler_addl sumr_ge0 // => i _; exact: ee_ge0.
Qed.

(** For every number of terms the stated bound fails when gamma is small. *)
Theorem thm_ess_bound_fails J : (0 < J)%N ->
  exists g0, 0 < g0 /\
  forall g P s order nm X v, 0 < g -> g <= g0 -> s <> 0 -> order <> Some 0%N -> ess_order g order = J ->
  kernel_evaluate false (ExpSineSquared P g s order nm) X X = inr v ->
  s ^ 2 * ess_error_bound g J < Rabs (v - cov_periodic P g s 0).
Proof.
move=> J0; pose C := exp 2 * 2 ^ J * INR (fact J).
have C0 : 0 < C.
  by rewrite /C; apply: Rmult_lt_0_compat (fact_INR_pos _); apply: Rmult_lt_0_compat (exp_pos _) _; apply: pow_lt; lra.
exists (1 / (C + 1)); split; first by apply: Rdiv_lt_0_compat; lra.
move=> g P s order nm X v g0 gC s0 o0 oJ; rewrite evaluate_inr => -[<-].
have x0 : 0 < g / 2 by lra.
set x := g / 2 in x0 *.
have gC' : g * (C + 1) <= 1.
  by move: gC => /(Rmult_le_compat_r (C + 1) _ _); rewrite /Rdiv Rmult_assoc Rinv_l; [|lra]; move=> h; have := h ltac:(lra); lra.
have yC : C < 1 / x.
  apply: (Rmult_lt_reg_r x) => //; rewrite /Rdiv Rmult_assoc Rinv_l; last lra.
  by rewrite /x; nra.
have x1 : x < 1 by rewrite /x; nra.
rewrite evaluate_ess // cov_periodicE oJ -/x.
have -> : alag X X = 0 by rewrite /alag Rminus_eq_0 Rabs_R0.
rewrite !Rmult_0_r cos_0 Rmult_1_r.
have xr := ring_le0 (Rlt_le _ _ x0).
have := @S_lower x 50 J xr J0; rewrite eeE (_ : Rdiv x (2%:R)%R = x / (1 + 1)); last by toR.
set a := S _ _ _ _; have e0 := exp_pos x => low.
have -> : s ^ 2 * (a / exp x) - s ^ 2 * (exp x / exp x) = - (s ^ 2 * ((exp x - a) / exp x)).
  by field; lra.
rewrite Rabs_Ropp.
have s2 : 0 < s ^ 2 by nra.
have f0 := fact_INR_pos J; have f1 := fact_INR_pos (J + 1).
have p2 : 0 < (x / (1 + 1)) ^ J by apply: pow_lt; lra.
have q0 : 0 < (x / (1 + 1)) ^ J / INR (fact J) by apply: Rdiv_lt_0_compat.
rewrite Rabs_pos_eq; last first.
  apply: Rmult_le_pos; first lra.
  by apply: Rlt_le; apply: Rdiv_lt_0_compat => //; lra.
apply: Rmult_lt_compat_l => //.
apply: Rlt_le_trans (_ : (x / (1 + 1)) ^ J / INR (fact J) / exp x <= _); last first.
  by apply: Rmult_le_compat_r; [apply/Rlt_le/Rinv_0_lt_compat | lra].
rewrite /ess_error_bound.
have -> : ess_scale g = 1 / x by rewrite /ess_scale /x; field; lra.
have y0 : 0 < 1 / x by apply: Rdiv_lt_0_compat; lra.
have := @exp_ge_pow (J + 1) (1 / x) (Rlt_le _ _ y0).
rewrite /Rminus exp_plus exp_Ropp; set y := 1 / x in yC y0 *; move=> ey.
have xy : x / (1 + 1) = / (2 * y) by rewrite /y; field; lra.
rewrite xy pow_inv Rpow_mult_distr.
have yJ : 0 < y ^ J by apply: pow_lt.
have tJ : 0 < 2 ^ J by apply: pow_lt; lra.
have ex2 : exp 1 * exp x <= exp 2.
  rewrite -exp_plus; have [h|->] : 1 + x < 2 \/ 1 + x = 2 by lra.
    by apply/Rlt_le/exp_increasing.
  exact: Rle_refl.
have eY := exp_pos y.
have main : exp 1 * exp x * (2 ^ J * y ^ J * INR (fact J)) < exp y * INR (fact (J + 1)).
  apply: (Rlt_le_trans _ (y ^ (J + 1))); last first.
    by move: ey => /(Rmult_le_compat_r (INR (fact (J + 1))) _ _ (Rlt_le _ _ f1)); rewrite /Rdiv Rmult_assoc Rinv_l ?Rmult_1_r //; lra.
  apply: (Rle_lt_trans _ (C * y ^ J)).
    rewrite /C; have := Rmult_le_compat_r (2 ^ J * y ^ J * INR (fact J)) _ _ _ ex2.
    move=> h; apply: Rle_trans (h _) _; last by right; ring.
    by apply: Rlt_le; apply: Rmult_lt_0_compat => //; apply: Rmult_lt_0_compat.
  by rewrite pow_add pow_1 Rmult_comm; apply: Rmult_lt_compat_l.
have d0 : 0 < 2 ^ J * y ^ J * INR (fact J) by apply: Rmult_lt_0_compat => //; apply: Rmult_lt_0_compat.
apply: (Rmult_lt_reg_r (exp y * INR (fact (J + 1)) * (exp x * (2 ^ J * y ^ J * INR (fact J))))).
  by apply: Rmult_lt_0_compat; apply: Rmult_lt_0_compat.
have -> : exp 1 * / exp y / INR (fact (J + 1)) * (exp y * INR (fact (J + 1)) * (exp x * (2 ^ J * y ^ J * INR (fact J))))
  = exp 1 * exp x * (2 ^ J * y ^ J * INR (fact J)) by field; split; lra.
have -> : / (2 ^ J * y ^ J) / INR (fact J) / exp x * (exp y * INR (fact (J + 1)) * (exp x * (2 ^ J * y ^ J * INR (fact J))))
  = exp y * INR (fact (J + 1)) by field; repeat split; lra.
exact: main.
Qed.

Theorem thm_ess_bound_refuted : exists g s v, 0 < g /\
  kernel_evaluate false (ExpSineSquared 1 g s None "k"%string) (CT 0) (CT 0) = inr v /\
  s ^ 2 * ess_error_bound g (ess_order g None) < Rabs (v - cov_periodic 1 g s 0).
Proof.
have [g0 [g0p h]] := @thm_ess_bound_fails 4 isT.
pose g := Rmin g0 2.
have gp : 0 < g by apply: Rmin_glb_lt; lra.
have o4 : ess_order g None = 4%N by apply: ess_order_small => //; apply: Rmin_r.
exists g, 1, (evaluate (ess_model 1 g 1 None) (CT 0) (CT 0)).
split=> //; split; first exact: evaluate_inr.
rewrite o4; apply: (h g 1 1 None "k"%string (CT 0)) => //; [exact: Rmin_l | exact: evaluate_inr].
Qed.

Lemma ess_example :
  exists v, kernel_evaluate false (ExpSineSquared 1 1 1 None "k"%string) (CT 0) (CT (1 / 4)) = inr v /\
  ess_order 1 None = 4%N /\ Rabs (v - exp (- (1 / 2))) <= 1 / 384.
Proof.
have o4 : ess_order 1 None = 4%N by apply: ess_order_small => //; lra.
exists (evaluate (ess_model 1 1 1 None) (CT 0) (CT (1 / 4))).
split; first exact: evaluate_inr.
split=> //.
have n0 : None <> Some 0%N by [].
have := @thm_ess_error 1 1 1 None "k"%string (CT 0) (CT (1 / 4)) _ Rlt_0_1 n0 (evaluate_inr _ _ _ _ _ _ _).
rewrite o4 /=.
have -> : Rabs (0 - 1 / 4) = 1 / 4 by rewrite Rabs_left; lra.
have -> : cov_periodic 1 1 1 (1 / 4) = exp (- (1 / 2)).
  rewrite /cov_periodic (_ : PI * (1 / 4 / 1) = PI / 4); last by field.
  rewrite sin_PI4 (_ : (1 / sqrt 2) ^ 2 = 1 / 2); last first.
    have h := sqrt_lt_R0 2 Rlt_0_2.
    rewrite /Rdiv Rmult_1_l pow_inv -[sqrt 2 ^ 2]/(sqrt 2 * (sqrt 2 * 1)) Rmult_1_r sqrt_sqrt; lra.
  by rewrite pow1 Rmult_1_l; congr exp; field.
by move=> h; apply: Rle_trans h _; right; field.
Qed.
