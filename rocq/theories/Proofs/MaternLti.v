(** The generic half-integer Matern kernel: its Lyapunov equation has a unique
    solution, which is positive definite. *)
From Coq Require Import Reals Lra Psatz.
From mathcomp Require Import all_ssreflect all_algebra.
From Coquelicot Require Import Coquelicot.
From Verif.Prelude Require Import Rstruct Psd Zmod MxCalc.
From Verif.Spec Require Import Expm Markov Lti.
From Verif.Model Require Import Array Helpers Ssm BaseKernels IntegratedKernels Kernel.
From Verif.Proofs Require Import Expm Lti.
Set Implicit Arguments.
Unset Strict Implicit.
Unset Printing Implicit Defensive.
Import Order.TTheory GRing.Theory Num.Theory.
Local Open Scope ring_scope.

(** Nilpotent perturbations: N X + X N^T = c X has no solution but 0. *)
Section Nilpotent.
Variables (n : nat) (N : 'M[R]_n) (d : nat).
Hypothesis nilp : mxpow N d = 0.

Lemma mxpow_nilp k : (d <= k)%N -> mxpow N k = 0.
Proof. by move=> /subnK <-; elim: (k - d)%N => //= j ->; rewrite mulmx0. Qed.

Lemma sylvester_inj (c : R) (X : 'M[R]_n) : c != 0 -> N *m X + X *m N^T = c *: X -> X = 0.
Proof.
move=> c0 h.
suff P e i j : (d + d <= i + j + e)%N -> mxpow N i *m X *m (mxpow N j)^T = 0.
  by have := P (d + d)%N 0%N 0%N (leqnn _); rewrite /= mul1mx trmx1 mulmx1.
elim: e i j => [|e IH] i j hij.
  case: (leqP d i) => [hi|hi]; first by rewrite (mxpow_nilp hi) !mul0mx.
  rewrite (@mxpow_nilp j) ?trmx0 ?mulmx0 //.
  by rewrite addn0 in hij; rewrite -(leq_add2l d) (leq_trans hij) // leq_add2r ltnW.
have e1 : mxpow N i.+1 *m X *m (mxpow N j)^T = 0 by apply: IH; rewrite addSn addSnnS.
have e2 : mxpow N i *m X *m (mxpow N j.+1)^T = 0 by apply: IH; rewrite addnS addSnnS.
have : mxpow N i *m (N *m X + X *m N^T) *m (mxpow N j)^T = 0.
  rewrite mulmxDr mulmxDl.
  rewrite mxpowSr -!mulmxA in e1; rewrite [mxpow N j.+1]mxpowSr trmx_mul -!mulmxA in e2.
  by rewrite -!mulmxA e1 e2 addr0.
rewrite h -scalemxAr -scalemxAl => /eqP.
by rewrite scaler_eq0 (negbTE c0) => /eqP.
Qed.
End Nilpotent.

(** The linear system solved by solve_continuous_lyapunov is nonsingular and
    its solution satisfies the equation. *)
Lemma lyap_linear n (F : 'M[R]_n) : linear (lyap_op F).
Proof. by move=> a X Y; rewrite /lyap_op mulmxDr mulmxDl -scalemxAr -scalemxAl scalerDr; zmod. Qed.
Canonical lyap_lin n (F : 'M[R]_n) := Linear (lyap_linear F).

Section LyapSolve.
Variables (n : nat) (F : 'M[R]_n).
Hypothesis inj : forall X, lyap_op F X = 0 -> X = 0.

Lemma lyap_unit : lin_mx (lyap_op F) \in unitmx.
Proof.
rewrite -row_free_unit -kermx_eq0; apply/eqP/row_matrixP=> i; rewrite row0.
have : row i (kermx (lin_mx (lyap_op F))) *m lin_mx (lyap_op F) = 0.
  by rewrite -row_mul mulmx_ker row0.
move: (row i _) => u hu.
have := mul_rV_lin (lyap_lin F) u; rewrite hu => e.
have : vec_mx u = 0.
  by apply: inj; apply: (can_inj mxvecK); rewrite -[mxvec (lyap_op _ _)]e linear0.
by move=> /(congr1 mxvec); rewrite vec_mxK linear0.
Qed.

Lemma lyap_solves Q : lyap_op F (solve_continuous_lyapunov F Q) = Q.
Proof.
apply: (can_inj mxvecK); rewrite /solve_continuous_lyapunov -(mul_rV_lin (lyap_lin F)).
by rewrite mulmxKV // lyap_unit.
Qed.
End LyapSolve.

(** Limits at infinity of matrix functions. *)
Lemma exp_pow_lim (l : R) k : Rlt R0 l ->
  is_lim (fun t => Rmult (pow t k) (exp (Ropp (Rmult l t)))) p_infty R0.
Proof.
move=> l0; pose C := Rdiv (INR (fact k.+1)) (pow l k.+1).
have lk : Rlt R0 (pow l k.+1) by apply: pow_lt.
have fk : Rlt R0 (INR (fact k.+1)) by apply: INR_fact_lt_0.
have C0 : Rlt R0 C by apply: Rdiv_lt_0_compat.
apply: (is_lim_le_le_loc (fun=> R0) (fun t => Rmult C (Rinv t))).
- exists R0 => t t0; split.
    by apply: Rlt_le; apply: Rmult_lt_0_compat; [apply: pow_lt | apply: exp_pos].
  have := pow_fact_le_exp k.+1 (Rlt_le _ _ (Rmult_lt_0_compat _ _ l0 t0)).
  rewrite exp_Ropp Rpow_mult_distr => h.
  have e0 := exp_pos (Rmult l t).
  apply: (Rmult_le_reg_r (exp (Rmult l t))) => //.
  rewrite Rmult_assoc Rinv_l ?Rmult_1_r; last by lra.
  apply: (Rle_trans _ (Rmult (Rmult C (Rinv t)) (Rmult (Rinv (INR (fact k.+1)))
      (Rmult (pow l k.+1) (pow t k.+1))))).
    right; rewrite /C -[pow t k.+1]/(Rmult t (pow t k)).
    by move: lk fk; move: (pow l k.+1) (INR _) (pow t k) => a b c a0 b0; field; lra.
  apply: Rmult_le_compat_l => //.
  by apply: Rmult_le_pos; [lra | apply: Rlt_le; apply: Rinv_0_lt_compat].
- exact: is_lim_const.
- have -> : Finite R0 = Rbar_mult C (Finite R0) by rewrite /= Rmult_0_r.
  apply: is_lim_scal_l.
  have -> : Finite R0 = Rbar_inv p_infty by [].
  by apply: is_lim_inv; [apply: is_lim_id | ].
Qed.

Definition mlim m n (A : R -> 'M[R]_(m, n)) (L : 'M[R]_(m, n)) :=
  forall i j, is_lim (fun t => A t i j) p_infty (L i j).

Lemma lim_sum I (r : seq I) (f : I -> R -> R) (l : I -> R) :
  (forall i, is_lim (f i) p_infty (l i)) ->
  is_lim (fun t => \sum_(i <- r) f i t) p_infty (\sum_(i <- r) l i).
Proof.
move=> h; elim: r => [|i r IH].
  apply: (is_lim_ext (fun=> R0)) => [t|]; first by rewrite big_nil.
  by rewrite big_nil; apply: is_lim_const.
apply: (is_lim_ext (fun t => Rplus (f i t) (\sum_(j <- r) f j t))) => [t|].
  by rewrite big_cons.
rewrite big_cons; apply: is_lim_plus (h i) IH _; by [].
Qed.

Lemma mlim_mul m n p (A : R -> 'M[R]_(m, n)) (B : R -> 'M[R]_(n, p)) L M :
  mlim A L -> mlim B M -> mlim (fun t => A t *m B t) (L *m M).
Proof.
move=> hA hB i j; rewrite mxE.
apply: (is_lim_ext (fun t => \sum_k A t i k * B t k j)) => [t|]; first by rewrite mxE.
by apply: lim_sum => k; apply: is_lim_mult (hA i k) (hB k j) _.
Qed.
Lemma mlim_const m n (A : 'M[R]_(m, n)) : mlim (fun=> A) A.
Proof. by move=> i j; apply: is_lim_const. Qed.
Lemma mlim_tr m n (A : R -> 'M[R]_(m, n)) L : mlim A L -> mlim (fun t => (A t)^T) L^T.
Proof.
move=> h i j; rewrite mxE; apply: is_lim_ext (h j i) => t.
by rewrite mxE.
Qed.

(** exp(t (N - l I)) tends to 0 when N is nilpotent and l > 0. *)
Section Stable.
Variables (n : nat) (F : 'M[R]_n) (l : R) (p : nat).
Hypothesis l0 : Rlt R0 l.
Let N := F + l%:M.
Hypothesis nilp : mxpow N p.+1 = 0.

Let Y q (t : R) : 'M[R]_n := \sum_(k < q) (Rdiv (pow t k) (INR (fact k))) *: mxpow N k.

Lemma mxd_sum (I : Type) (r : seq I) m1 m2 (A : I -> R -> 'M[R]_(m1, m2)) x (D : I -> 'M[R]_(m1, m2)) :
  (forall i, mxd (A i) x (D i)) -> mxd (fun s => \sum_(i <- r) A i s) x (\sum_(i <- r) D i).
Proof.
move=> h; elim: r => [|i r IH].
  by rewrite big_nil; apply: mxd_ext (mxd_const 0 x) => s; rewrite big_nil.
rewrite big_cons; apply: mxd_ext (mxd_add (h i) IH) => s.
by rewrite big_cons.
Qed.

Lemma Y_der t : mxd (Y p.+1) t (N *m Y p.+1 t).
Proof.
have -> : N *m Y p.+1 t = N *m Y p t.
  rewrite /Y big_ord_recr /= mulmxDr -scalemxAr.
  by rewrite -[N *m mxpow N p]/(mxpow N p.+1) nilp scaler0 addr0.
apply: (mxd_ext (A := fun t => \sum_(k < p.+1) (Rdiv (pow t k) (INR (fact k))) *: mxpow N k)) => //.
apply: mxd_eq.
  apply: (@mxd_sum _ _ _ _ _ _ (fun k : 'I_p.+1 =>
     (Rmult (INR k) (Rdiv (pow t k.-1) (INR (fact k)))) *: mxpow N k)) => k.
  apply: mxd_eq.
    apply: (mxd_scale (f := fun t => Rdiv (pow t k) (INR (fact k)))
      (a := Rmult (INR k) (Rdiv (pow t k.-1) (INR (fact k))))); last exact: mxd_const.
    rewrite /der; auto_derive => //.
    by rewrite /Rdiv -?pred_of_minus; ring.
  by rewrite scaler0 addr0.
rewrite big_ord_recl [INR _]/= Rmult_0_l scale0r add0r /Y mulmx_sumr; apply: eq_bigr => k _.
rewrite -scalemxAr -[nat_of_ord (lift _ _)]/k.+1; congr (_ *: _).
have hk := INR_fact_neq_0 k.
rewrite -[k.+1.-1]/(k : nat) fact_simpl mult_INR.
have h a b c : b <> R0 -> a <> R0 -> Rmult a (Rdiv c (Rmult a b)) = Rdiv c b.
  by move=> *; field.
by apply: h => //; apply: not_0_INR.
Qed.

Lemma stable_expm t : expm (t *: F) = exp (Ropp (Rmult l t)) *: Y p.+1 t.
Proof.
have Y0 : Y p.+1 R0 = 1%:M.
  rewrite /Y big_ord_recl /= big1 => [|k _]; last by rewrite /Rdiv Rmult_0_l Rmult_0_l scale0r.
  by rewrite addr0 /Rdiv Rinv_1 Rmult_1_l scale1r.
have := @expm_unique _ _ F (fun t => exp (Ropp (Rmult l t)) *: Y p.+1 t) _ t.
rewrite -[GRing.zero _]/R0 Y0 Rmult_0_r Ropp_0 exp_0 scale1r mulmx1.
move=> <- // {}t.
apply: mxd_eq.
  apply: (mxd_scale (f := fun t => exp (Ropp (Rmult l t))) (a := Rmult (Ropp l) (exp (Ropp (Rmult l t))))).
    by rewrite /der; auto_derive => //; ring.
  exact: Y_der.
rewrite -scalemxAr.
have -> : F = N - l%:M by rewrite /N addrK.
rewrite mulmxBl mul_scalar_mx scalerBr scalerA [in RHS]addrC; congr (_ + _).
by rewrite -scaleNr; congr (_ *: _); toR; ring.
Qed.

Lemma stable_lim : mlim (fun t => expm (t *: F)) 0.
Proof.
move=> i j; rewrite mxE.
apply: (is_lim_ext (fun t => \sum_(k < p.+1) Rmult (Rdiv (mxpow N k i j) (INR (fact k)))
   (Rmult (pow t k) (exp (Ropp (Rmult l t)))))) => [t|].
  rewrite stable_expm mxE /Y summxE mulr_sumr; apply: eq_bigr => k _.
  by rewrite mxE; toR; rewrite /Rdiv; ring.
have e : \sum_(k < p.+1) Rmult (Rdiv (mxpow N k i j) (INR (fact k))) R0 = 0 :> R.
  by rewrite big1 // => k _; rewrite Rmult_0_r.
have := @lim_sum _ (index_enum _) (fun (k : 'I_p.+1) t => Rmult (Rdiv (mxpow N k i j) (INR (fact k)))
   (Rmult (pow t k) (exp (Ropp (Rmult l t)))))
   (fun k => Rmult (Rdiv (mxpow N k i j) (INR (fact k))) R0).
rewrite e; apply=> k.
exact: (is_lim_scal_l _ _ _ _ (exp_pow_lim _ l0)).
Qed.

Lemma stable_inj X : lyap_op F X = 0 -> X = 0.
Proof.
move=> h; apply: (sylvester_inj nilp (c := Rplus l l)).
  by apply/eqP=> e; have : Rplus l l = R0; [exact: e | lra].
rewrite /N linearD /= tr_scalar_mx mulmxDl mulmxDr addrACA -/(lyap_op F X) h add0r.
by rewrite mul_scalar_mx mul_mx_scalar -scalerDl.
Qed.

(** The solution of the Lyapunov equation is positive semidefinite. *)
Lemma stable_psd P B : P^T = P -> lyap_op F P + B = 0 -> psdmx B -> psdmx P.
Proof.
move=> sP hl hB; split=> // x.
pose f t := (x^T *m (expm (t *: F) *m P *m (expm (t *: F))^T) *m x) 0 0.
have lf : is_lim f p_infty R0.
  have h1 := mlim_mul stable_lim (@mlim_const _ _ P).
  have h2 := mlim_mul h1 (mlim_tr stable_lim).
  have h4 := mlim_mul (mlim_mul (@mlim_const _ _ x^T) h2) (@mlim_const _ _ x).
  have := h4 0 0.
  by rewrite !mul0mx mulmx0 mul0mx mxE.
have hf t : Rle R0 t -> Rle (f t) (qf P x).
  move=> /RleP t0; apply/RleP.
  have [_ /(_ x)] := lyap_psd sP hl hB t0.
  by rewrite qfB subr_ge0.
apply/RleP; have := is_lim_le_loc f (fun=> qf P x) p_infty R0 (qf P x) _ lf (is_lim_const _ _).
by apply; exists R0 => t t0; apply: hf; lra.
Qed.
End Stable.

Lemma mxpowE n (M : 'M[R]_n.+1) k : mxpow M k = M ^+ k.
Proof. by elim: k => // k IH; rewrite exprS /= IH. Qed.

(** The companion matrix of (X + l)^(p+1). *)
Section Companion.
Variables (p : nat) (l : R).
Let d := p.+1.
Let pol : {poly R} := ('X - (- l)%:P) ^+ d.

Lemma pol_coef j : (j <= d)%N -> pol`_j = l ^+ (d - j) *+ 'C(d, j).
Proof.
move=> hj; rewrite /pol polyCN opprK exprDn coef_sum.
have hd : (d - j < d.+1)%N by rewrite ltnS leq_subr.
rewrite (bigD1 (Ordinal hd)) //= big1 ?addr0 => [|i ni].
  by rewrite coefMn -polyC_exp coefMC coefXn subKn // eqxx mul1r bin_sub.
rewrite coefMn -polyC_exp coefMC coefXn; case: eqP => [e|_]; last by rewrite mul0r mul0rn.
case/eqP: ni; apply: val_inj; rewrite /= e subKn //.
by rewrite -ltnS.
Qed.

Lemma companion_char (A : 'M[R]_d) :
  (forall i j : 'I_d, A i j = if (i : nat) == p then - pol`_j else (i.+1 == j :> nat)%:R) ->
  char_poly A = pol.
Proof.
move=> hA; have mon : pol \is monic by apply: monic_exp; apply: monicXsubC.
have sz : (size pol).-1 = d by rewrite /pol size_exp_XsubC.
have := companionmxK mon; rewrite /companionmx; move: sz; move: (size pol).-1 => n e; subst n.
move=> <-; congr char_poly; apply/matrixP=> i j; rewrite hA mxE //.
Qed.

Lemma companion_nilp (A : 'M[R]_d) :
  (forall i j : 'I_d, A i j = if (i : nat) == p then - pol`_j else (i.+1 == j :> nat)%:R) ->
  mxpow (A + l%:M) d = 0.
Proof.
move=> hA; have := Cayley_Hamilton A; rewrite (companion_char hA) /pol.
rewrite rmorphX rmorphB /= horner_mx_X horner_mx_C raddfN /= opprK.
by rewrite mxpowE exprS.
Qed.
End Companion.

Lemma factE n : fact n = n`!.
Proof. by elim: n => // n IH; rewrite fact_simpl IH factS multE. Qed.

Section MaternLti.
Variables (p : nat) (scale sigma : R).
Hypothesis scale0 : Rlt R0 scale.
Hypothesis sigma0 : sigma <> R0.
Let d := p.+1.
Let lam := matern_lam p scale.
Let F := matern_F p scale.

Lemma lam_pos : Rlt R0 lam.
Proof.
apply: Rdiv_lt_0_compat => //; apply: sqrt_lt_R0.
by have := pos_INR p; lra.
Qed.

Lemma matern_nilp : mxpow (F + lam%:M) d = 0.
Proof.
apply: companion_nilp => i j; rewrite mxE; case: ifP => hi; last first.
  by rewrite eq_sym; case: ifP.
congr (- _).
have hj : (j <= d)%N by apply: ltnW.
rewrite pol_coef // RmulrnE; congr Rmult.
rewrite !factE -(bin_fact hj) !mult_INR.
have h1 : INR j`! <> R0 by rewrite -factE; apply: INR_fact_neq_0.
have h2 : INR (d - j)`! <> R0 by rewrite -factE; apply: INR_fact_neq_0.
by rewrite -/d; move: h1 h2; move: (INR j`!) (INR (d - j)`!) (INR _) => a b c a0 b0; toR; field.
Qed.

Lemma matern_lyap : F *m matern_Pinf p scale sigma + matern_Pinf p scale sigma *m F^T
  + matern_L p *m matern_Qc p scale sigma *m (matern_L p)^T = 0.
Proof.
have := lyap_solves (stable_inj lam_pos matern_nilp)
   (- (matern_L p *m matern_Qc p scale sigma *m (matern_L p)^T)).
by rewrite -/(matern_Pinf p scale sigma) /lyap_op => ->; rewrite addNr.
Qed.

Lemma matern_q_pos : Rlt R0 (matern_Qc p scale sigma 0 0).
Proof.
rewrite mxE; toR.
have h1 : Rlt R0 (sq sigma) by apply: Rsqr_pos_lt.
have h2 : Rlt R0 (sq (INR (fact (p.+1 - 1)))) by apply: Rsqr_pos_lt; apply: INR_fact_neq_0.
have h3 := INR_fact_lt_0 (2 * p.+1 - 2).
have h4 : Rlt R0 (pow (Rmult 2 lam) (2 * p.+1 - 1)) by apply: pow_lt; have := lam_pos; lra.
by apply: Rmult_lt_0_compat => //; apply: Rdiv_lt_0_compat => //; apply: Rmult_lt_0_compat.
Qed.

Lemma matern_B_psd : psdmx (matern_L p *m matern_Qc p scale sigma *m (matern_L p)^T).
Proof. by apply: psd_conj; apply: psd11; apply/RleP; apply: Rlt_le; apply: matern_q_pos. Qed.

Lemma matern_Pinf_sym : (matern_Pinf p scale sigma)^T = matern_Pinf p scale sigma.
Proof.
apply/eqP; rewrite -subr_eq0; apply/eqP; apply: (stable_inj lam_pos matern_nilp).
have h := matern_lyap; have h' := congr1 trmx h.
have sB := proj1 matern_B_psd.
move: h h' sB; move: (matern_Pinf p scale sigma) (_ *m _ *m (matern_L p)^T) => P B h h' sB.
rewrite !linearD /= sB !trmx_mul trmxK trmx0 in h'.
rewrite /lyap_op.
have e1 : F *m P + P *m F^T = - B by apply/eqP; rewrite -addr_eq0 h.
have e2 : F *m P^T + P^T *m F^T = - B by apply/eqP; rewrite -addr_eq0 [F *m _ + _]addrC h'.
by rewrite mulmxBr mulmxBl addrACA -opprD e1 e2 subrr.
Qed.

Lemma matern_Pinf_pd : pdmx (matern_Pinf p scale sigma).
Proof.
have hl := matern_lyap.
have hP : psdmx (matern_Pinf p scale sigma).
  exact: (stable_psd lam_pos matern_nilp matern_Pinf_sym hl matern_B_psd).
apply: pdP => // x.
move: hl hP; move: (matern_Pinf p scale sigma) => P hl hP.
(* the kernel of P is invariant under F^T and orthogonal to L *)
have step (y : 'cV_p.+1) : P *m y = 0 -> P *m (F^T *m y) = 0 /\ y (Ordinal (ltnSn p)) 0 = 0.
  move=> Py.
  have hB : qf (matern_L p *m matern_Qc p scale sigma *m (matern_L p)^T) y = 0.
    have sP := proj1 hP.
    have e1 : y^T *m (F *m P) *m y = 0 by rewrite -!mulmxA Py !mulmx0.
    have e2 : y^T *m (P *m F^T) *m y = 0.
      by rewrite mulmxA -{1}sP -trmx_mul Py trmx0 !mul0mx.
    move/eqP: hl; rewrite addrC addr_eq0 /qf => /eqP ->.
    by rewrite mulmxN mulmxDr mulNmx mulmxDl e1 e2 addr0 oppr0 mxE.
  have By := psd_ker matern_B_psd hB.
  have := congr1 (fun M => M *m y) hl.
  rewrite mul0mx !mulmxDl By addr0 -!mulmxA Py mulmx0 add0r => e; split=> //.
  have := congr1 (fun M : 'cV_d => M (Ordinal (ltnSn p)) 0) By.
  have -> : matern_L p = delta_mx (Ordinal (ltnSn p)) 0.
    by apply/matrixP=> i j; rewrite !mxE ord1 eqxx andbT -val_eqE /=; case: eqP.
  rewrite trmx_delta -!mulmxA -rowE mxE big_ord1 mul11E !mxE !eqxx /= mul1r.
  move=> /eqP; rewrite mulf_eq0 => /orP[/eqP h|/eqP //].
  by have := matern_q_pos; rewrite mxE h => /Rlt_irrefl.
move=> /(psd_ker hP) Px.
have orb k : P *m (mxpow F^T k *m x) = 0.
  elim: k => [|k IH]; first by rewrite /= mul1mx.
  by rewrite /= -mulmxA; case: (step _ IH).
(* entry j of F^T^k x is entry j - k of x *)
have shift k : forall j : 'I_d, (k <= j)%N -> forall i : 'I_d, (i + k = j)%N ->
    (mxpow F^T k *m x) j 0 = x i 0.
  elim: k => [|k IH] j hkj i e.
    by rewrite /= mul1mx; congr (x _ _); apply: val_inj; rewrite /= -e addn0.
  have hj : (j.-1 < d)%N by apply: leq_ltn_trans (leq_pred _) (ltn_ord j).
  have j0 : (0 < j)%N by apply: leq_trans hkj.
  rewrite -(IH (Ordinal hj) _ i) /=; last 2 first.
  - by rewrite -ltnS prednK.
  - by rewrite -e addnS.
  rewrite -mulmxA mxE (bigD1 (Ordinal hj)) //= big1 => [|a na].
    rewrite !mxE /= prednK // eqxx.
    have -> : j.-1 == p = false.
      by apply/negbTE; rewrite neq_ltn -ltnS prednK // ltn_ord.
    by rewrite mul1r addr0.
  rewrite [F^T _ _]mxE [F _ _]mxE; case: eqP => [ap|_].
    have [_] := step _ (orb k).
    have -> : Ordinal (ltnSn p) = a by apply: val_inj; rewrite /= ap.
    by move=> ->; rewrite mulr0.
  case: eqP => [e'|_]; last by rewrite mul0r.
  by case/eqP: na; apply: val_inj; rewrite /= e'.
apply/matrixP=> i j; rewrite ord1 [RHS]mxE.
have hi : (p - i <= p)%N by apply: leq_subr.
rewrite -(shift (p - i)%N (Ordinal (ltnSn p)) hi i); last by rewrite /= subnKC // -ltnS.
by case: (step _ (orb (p - i)%N)).
Qed.

Lemma matern_lti : declared_lti (matern_model p scale sigma).
Proof.
constructor=> //=.
- exact: matern_Pinf_pd.
- exact: matern_lyap.
- exact: matern_B_psd.
- by move=> X1 X2; rewrite /default_process_noise /default_transition lag0.
Qed.
End MaternLti.

Lemma matern_noise p scale sigma dt : noise_exact_at (matern_model p scale sigma) dt.
Proof. by []. Qed.
