(** The expansion of exp(x cos th) in cosines, truncated as ExpSineSquared does. *)
From Coq Require Import Reals Lra.
From mathcomp Require Import all_ssreflect all_algebra.
From Coquelicot Require Import Coquelicot.
From Verif.Prelude Require Import Rstruct Zmod.
Set Implicit Arguments.
Unset Strict Implicit.
Unset Printing Implicit Defensive.
Import Order.TTheory GRing.Theory Num.Theory.
Delimit Scope R_scope with Re.
Local Open Scope ring_scope.

(** Pascal's triangle *)
Lemma pascal_sum (f : nat -> R) n :
  \sum_(a < n.+1) 'C(n, a)%:R * (f a + f a.+1) = \sum_(a < n.+2) 'C(n.+1, a)%:R * f a.
Proof.
have -> : \sum_(a < n.+1) 'C(n, a)%:R * (f a + f a.+1)
    = \sum_(a < n.+1) 'C(n, a)%:R * f a + \sum_(a < n.+1) 'C(n, a)%:R * f a.+1.
  by rewrite -big_split /=; apply: eq_bigr => a _; rewrite mulrDr.
rewrite [in RHS]big_ord_recl [in RHS]/= bin0.
have -> : \sum_(i < n.+1) 'C(n.+1, bump 0 i)%:R * f (bump 0 i)
    = \sum_(i < n.+1) 'C(n, i.+1)%:R * f i.+1 + \sum_(i < n.+1) 'C(n, i)%:R * f i.+1.
  by rewrite -big_split /=; apply: eq_bigr => a _; rewrite /bump leq0n add1n binS natrD mulrDl.
rewrite addrA; congr (_ + _).
rewrite big_ord_recl /= bin0; congr (_ + _).
rewrite [in RHS]big_ord_recr /= bin_small // mul0r addr0.
by apply: eq_bigr => a _; rewrite /bump leq0n add1n.
Qed.

Section Jacobi.
Variables (x th : R).

Lemma cos_prod (a b : R) : 2%:R * cos a * cos b = cos (b - a) + cos (b + a).
Proof.
by rewrite cos_minus cos_plus; toR; simpl INR; ring.
Qed.
Lemma cosn n : (2%:R * cos th) ^+ n = \sum_(a < n.+1) 'C(n, a)%:R * cos ((a%:R - (n - a)%:R) * th).
Proof.
pose f m a := cos ((a.*2%:R - m%:R) * th).
suff -> : (2%:R * cos th) ^+ n = \sum_(a < n.+1) 'C(n, a)%:R * f n a.
  apply: eq_bigr => a _; rewrite /f natrB; last by rewrite -ltnS.
  by rewrite -addnn natrD; congr (_ * cos _); toR; ring.
elim: n => [|n IH].
  by rewrite big_ord1 expr0 /f bin0 mul1r -[LHS]cos_0; congr cos; toR; simpl INR; ring.
rewrite exprS IH -pascal_sum mulr_sumr; apply: eq_bigr => a _.
rewrite mulrCA cos_prod /f; move: (nat_of_ord a) => {a} i.
congr (_ * (cos _ + cos _)).
  by rewrite -[n.+1%:R]/((1 + n)%:R) natrD; toR; ring.
by rewrite doubleS -[(_).+2]addn2 -[n.+1]addn1 !natrD; toR; simpl INR; ring.
Qed.

Definition u (a : nat) : R := ((x / 2%:R) ^+ a / a`!%:R)%R.
Definition h (a b : nat) : R := (u a * u b)%R.
Definition g (a b : nat) : R := (h a b * cos ((a%:R - b%:R) * th))%R.

Lemma fact_neq0 n : n`!%:R != 0 :> R.
Proof. by rewrite pnatr_eq0 -lt0n fact_gt0. Qed.
Lemma uu n a : (a <= n)%N -> h a (n - a) = (x / 2%:R) ^+ n / n`!%:R * 'C(n, a)%:R.
Proof.
move=> an; rewrite /h /u -{3}(subnKC an) exprD.
have e : 'C(n, a)%:R * (a`!%:R * (n - a)`!%:R) = n`!%:R :> R by rewrite -!natrM bin_fact.
rewrite -e.
have h1 := fact_neq0 a; have h2 := fact_neq0 (n - a).
have h3 : 'C(n, a)%:R != 0 :> R by rewrite pnatr_eq0 -lt0n bin_gt0.
move: h1 h2 h3; move: (a`!%:R) ((n - a)`!%:R) ('C(n, a)%:R) => f1 f2 c h1 h2 h3.
move: ((x / 2) ^+ a) ((x / 2) ^+ (n - a)) => y1 y2.
by move: h1 h2 h3 => /eqP h1 /eqP h2 /eqP h3; toR; field.
Qed.
Lemma diag_g n : \sum_(0 <= a < n.+1) g a (n - a) = (x * cos th) ^+ n / n`!%:R.
Proof.
have -> : (x * cos th) ^+ n = (x / 2%:R) ^+ n * (2%:R * cos th) ^+ n.
  by rewrite -exprMn; congr (_ ^+ _); rewrite mulrA divfK // pnatr_eq0.
rewrite cosn mulr_sumr mulr_suml big_mkord; apply: eq_bigr => a _.
rewrite /g uu; last by rewrite -ltnS.
by rewrite [in RHS]mulrAC -!mulrA.
Qed.
End Jacobi.

Lemma diag_h x n : \sum_(0 <= a < n.+1) h x a (n - a) = x ^+ n / n`!%:R.
Proof.
have e : (x * cos 0)%R = x by rewrite cos_0 mulr1.
rewrite -[in RHS]e -(diag_g x 0); apply: eq_bigr => a _.
by rewrite /g Rmult_0_r cos_0 mulr1.
Qed.

(** Sums over the triangle a + b < N. *)
Definition T N (P : nat -> nat -> bool) (f : nat -> nat -> R) : R :=
  \sum_(0 <= a < N) \sum_(0 <= b < N | (a + b < N)%N && P a b) f a b.

Lemma eq_T N (P Q : nat -> nat -> bool) (f f' : nat -> nat -> R) :
  (forall a b, (a + b < N)%N -> P a b = Q a b) ->
  (forall a b, P a b -> f a b = f' a b) -> T N P f = T N Q f'.
Proof.
move=> e ef; apply: eq_bigr => a _; apply: eq_big => [b|b /andP[]].
  by case hab: (a + b < N)%N => //=; rewrite e.
by move=> _ /ef.
Qed.
Lemma T_split N (P Q : nat -> nat -> bool) f :
  T N P f = T N (fun a b => P a b && Q a b) f + T N (fun a b => P a b && ~~ Q a b) f.
Proof.
rewrite /T -big_split /=; apply: eq_bigr => a _; rewrite (bigID (Q a)) /=.
by congr (_ + _); apply: eq_bigl => b; rewrite andbA.
Qed.
Lemma T_sym N (P : nat -> nat -> bool) f : T N P f = T N (fun a b => P b a) (fun a b => f b a).
Proof.
rewrite /T; under eq_bigr do rewrite big_mkcond; rewrite exchange_big /=.
by apply: eq_bigr => a _; rewrite -big_mkcond /=; apply: eq_bigl => b; rewrite addnC.
Qed.
Lemma T_diag N (Q : pred nat) f :
  T N (fun a b => Q (a + b)%N) f
  = \sum_(0 <= n < N | Q n) \sum_(0 <= a < n.+1) f a (n - a)%N.
Proof.
rewrite /T.
transitivity (\sum_(0 <= a < N) \sum_(0 <= n < N | (a <= n)%N && Q n) f a (n - a)%N).
  rewrite big_seq [in RHS]big_seq; apply: eq_bigr => a; rewrite mem_index_iota /= => aN.
  have -> : \sum_(0 <= n < N | (a <= n)%N && Q n) f a (n - a)%N = \sum_(a <= n < N | Q n) f a (n - a)%N.
    by rewrite [in RHS](big_nat_widenl _ 0) //; apply: eq_bigl => b; rewrite andbC.
  have -> : \sum_(a <= n < N | Q n) f a (n - a)%N = \sum_(0 <= n < N - a | Q (n + a)%N) f a (n + a - a)%N.
    exact: (big_addn 0 N a Q (fun n => f a (n - a)%N)).
  rewrite [in RHS](big_nat_widen _ _ N) ?leq_subr //; apply: eq_big => [b|b _]; last by rewrite addnK.
  by rewrite andbC ltn_subRL addnC [(b + a)%N]addnC.
under eq_bigr do rewrite big_mkcond; rewrite exchange_big /= [in RHS]big_mkcond.
rewrite big_seq [in RHS]big_seq; apply: eq_bigr => n; rewrite mem_index_iota /= => nN.
rewrite -big_mkcond; case: (Q n); last by rewrite big_pred0 // => a; rewrite andbF.
rewrite [in RHS](big_nat_widen _ _ N) //; apply: eq_bigl => a.
by rewrite andbT ltnS.
Qed.
Lemma T_le N (P Q : nat -> nat -> bool) f f' :
  (forall a b, (a + b < N)%N -> P a b -> Q a b) ->
  (forall a b, 0 <= f' a b) ->
  (forall a b, `|f a b| <= f' a b) -> `|T N P f| <= T N Q f'.
Proof.
move=> pq f0 ff; apply: le_trans (ler_norm_sum _ _ _) _; apply: ler_sum => a _.
apply: le_trans (ler_norm_sum _ _ _) _.
apply: le_trans (_ : \sum_(0 <= b < N | (a + b < N)%N && P a b) f' a b <= _).
  by apply: ler_sum => b _; apply: ff.
rewrite big_mkcond [in X in _ <= X]big_mkcond; apply: ler_sum => b _.
case hab: (a + b < N)%N => //=; have := pq a b hab.
by case: (P a b) => [-> //|_]; case: (Q a b).
Qed.

(** The pairs that the sum of [J] periodic terms with [K] Bessel terms each keeps. *)
Definition kept K J (a b : nat) : bool := (minn a b < K)%N && (maxn a b - minn a b < J)%N.

Lemma T_kept N K J f : (K + K + J <= N)%N ->
  T N (kept K J) f
  = \sum_(0 <= j < J) \sum_(0 <= k < K) f k (k + j)%N
    + \sum_(1 <= j < J) \sum_(0 <= k < K) f (k + j)%N k.
Proof.
move=> kN.
have half m f' : T N (fun a b => (a < K) && (a + m <= b < a + J))%N f'
    = \sum_(m <= j < J) \sum_(0 <= k < K) f' k (k + j)%N.
  rewrite /T [in RHS]exchange_big_nat /=.
  rewrite [in RHS](big_nat_widen _ _ N); last by apply: leq_trans kN; rewrite -addnA leq_addr.
  rewrite [in RHS]big_mkcond big_seq [in RHS]big_seq; apply: eq_bigr => a.
  rewrite mem_index_iota /= => aN; case: ltnP => aK; last by rewrite big_pred0 // => b; rewrite andbF.
  have -> : \sum_(0 <= b < N | (a + b < N)%N && (a + m <= b < a + J)%N) f' a b
     = \sum_(m + a <= b < J + a) f' a b.
    rewrite [in RHS](big_nat_widenl _ 0) // [in RHS](big_nat_widen _ _ N); last first.
      by apply: leq_trans kN; rewrite (addnC J a) leq_add2r (leq_trans (ltnW aK)) ?leq_addr.
    apply: eq_bigl => b; rewrite !(addnC _ a) /=.
    apply/idP/idP => [/andP[_ //]|/andP[-> h2]]; rewrite h2 !andbT.
    apply: leq_trans kN; rewrite -addnA.
    by rewrite -addnS leq_add ?(ltnW aK) // (leq_trans h2) // leq_add2r ltnW.
  by rewrite big_addn addnK; apply: eq_bigr => b _; rewrite addnC.
rewrite (T_split _ _ (fun a b => a <= b)%N); congr (_ + _).
  rewrite -(half 0%N); apply: eq_T => // a b _; rewrite /kept addn0.
  case: (leqP a b) => ab; last by rewrite !andbF.
  by rewrite andbT ltn_subLR.
rewrite T_sym -(half 1%N (fun a b => f b a)); apply: eq_T => // a b _; rewrite /kept addn1.
case: (leqP b a) => ab; first by rewrite !andbF.
by rewrite andbT ltn_subLR // ltnW.
Qed.

Definition ee (z : R) (n : nat) : R := (z ^+ n / n`!%:R)%R.

Lemma sum_n_big (f : nat -> R) N : sum_n f N = \sum_(0 <= n < N.+1) f n.
Proof.
elim: N => [|N IH]; first by rewrite sum_O big_nat1.
by rewrite sum_Sn IH [RHS]big_nat_recr.
Qed.
Lemma pow_expr (z : R) n : pow z n = z ^+ n.
Proof. by elim: n => [|n IH] //=; rewrite IH exprS. Qed.
Lemma fact_eq n : fact n = n`!.
Proof. by elim: n => [//|n IH]; rewrite factS -IH. Qed.
Lemma INR_fact n : INR (fact n) = n`!%:R :> R.
Proof. by rewrite fact_eq; toR. Qed.
Lemma ee_lim z : is_lim_seq (fun N => (\sum_(0 <= n < N.+1) ee z n)%R) (exp z).
Proof.
have := is_exp_Reals z; rewrite /is_pseries /is_series => hz.
have hz' : is_lim_seq (sum_n (fun k => scal (pow_n z k) (/ INR (fact k))%Re)) (exp z) by exact: hz.
apply: (is_lim_seq_ext _ _ _ _ hz') => N.
rewrite -sum_n_big; apply: sum_n_ext => n.
rewrite -[scal _ _]/(pow_n z n * / INR (fact n))%Re /ee INR_fact -pow_expr pow_n_pow.
by toR.
Qed.

Lemma ee_add x m i : 0 <= x -> ee x (i + m) <= ee x m * ee x i.
Proof.
move=> x0; rewrite /ee exprD mulrACA [x ^+ i * _]mulrC; apply: ler_wpmul2l.
  by rewrite mulr_ge0 // exprn_ge0.
rewrite -invfM lef_pinv ?posrE ?ltr0n ?fact_gt0 // -?natrM ?ltr0n ?muln_gt0 ?fact_gt0 //.
rewrite ler_nat -(bin_fact (leq_addl i m)) addnK.
by rewrite leq_pmull // bin_gt0 leq_addl.
Qed.
Lemma ee_ge0 x n : 0 <= x -> 0 <= ee x n.
Proof. by move=> x0; rewrite /ee divr_ge0 ?exprn_ge0 ?ler0n. Qed.
Lemma ee_tail x m N : 0 <= x ->
  \sum_(0 <= n < N | (m <= n)%N) ee x n <= ee x m * \sum_(0 <= n < N) ee x n.
Proof.
move=> x0.
have -> : \sum_(0 <= n < N | (m <= n)%N) ee x n = \sum_(m <= n < N) ee x n.
  by rewrite [in RHS](big_nat_widenl _ 0).
have -> : \sum_(m <= n < N) ee x n = \sum_(0 <= n < N - m) ee x (n + m).
  exact: (big_addn 0 N m predT (ee x)).
rewrite mulr_sumr [in X in _ <= X](big_nat_widen _ _ N) //=.
rewrite [in X in X <= _](big_nat_widen _ _ N) ?leq_subr //= big_mkcond [in X in _ <= X]big_mkcond.
apply: ler_sum => i _; case: ifP => iN.
  by rewrite ifT ?ee_add //; apply: leq_trans iN (leq_subr _ _).
by case: ifP => // _; rewrite mulr_ge0 ?ee_ge0.
Qed.

Lemma u_ge0 x a : 0 <= x -> 0 <= u x a.
Proof. by move=> x0; rewrite /u divr_ge0 ?exprn_ge0 ?ler0n ?divr_ge0 ?ler0n. Qed.

(** The truncated cosine series, and how far it is from exp(x cos th). *)
Definition S x th K J : R :=
  (\sum_(0 <= j < J) (if j == 0%N then 1 else 2%:R)
      * (\sum_(0 <= k < K) u x k * u x (k + j)) * cos (j%:R * th))%R.

Lemma S_T x th K J N : (0 < J)%N -> (K + K + J <= N)%N -> S x th K J = T N (kept K J) (g x th).
Proof.
move=> J0 /T_kept ->; rewrite /S big_ltn // [in RHS]big_ltn // -addrA; congr (_ + _).
  rewrite eqxx mul1r mulr_suml; apply: eq_bigr => k _; rewrite /g /h; congr (_ * _).
  by congr cos; rewrite addn0; toR; ring.
rewrite -big_split /= big_seq [in RHS]big_seq; apply: eq_bigr => j; rewrite mem_index_iota => /andP[j0 _].
rewrite ifF; last by case: (j) j0.
rewrite -big_split /= mulr_sumr mulr_suml; apply: eq_bigr => k _; rewrite /g /h natrD.
have -> : cos ((k%:R - (k%:R + j%:R)%R) * th) = cos (j%:R * th).
  by rewrite -cos_neg; congr cos; toR; ring.
have -> : cos (((k%:R + j%:R)%R - k%:R) * th) = cos (j%:R * th).
  by congr cos; toR; ring.
by rewrite [u x (k + j) * _]mulrC -mulrA mulrDl mul1r.
Qed.

Lemma not_kept K J a b : (0 < J)%N -> ~~ kept K J a b -> (minn J (K + K) <= a + b)%N.
Proof.
move=> J0; rewrite /kept negb_and -!leqNgt => /orP[kk|jj].
  by apply: leq_trans (geq_minr _ _) _; apply: leq_add; apply: leq_trans kk _; rewrite ?geq_minl ?geq_minr.
apply: leq_trans (geq_minl _ _) _; apply: leq_trans jj _; apply: leq_trans (leq_subr _ _) _.
by rewrite geq_max leq_addr leq_addl.
Qed.

Lemma S_partial x th K J N : 0 <= x -> (0 < J)%N -> (K + K + J <= N)%N ->
  `|\sum_(0 <= n < N) ee (x * cos th) n - S x th K J|
  <= ee x (minn J (K + K)) * \sum_(0 <= n < N) ee x n.
Proof.
move=> x0 J0 kN.
have -> : \sum_(0 <= n < N) ee (x * cos th) n = T N (fun _ _ => true) (g x th).
  by rewrite (T_diag N predT); apply: eq_bigr => n _; rewrite diag_g.
rewrite (S_T _ _ J0 kN) (T_split _ _ (kept K J)).
rewrite [T N (fun a b => true && kept K J a b) _]/= addrAC subrr add0r.
apply: le_trans (ee_tail _ _ x0).
have -> : \sum_(0 <= n < N | (minn J (K + K) <= n)%N) ee x n
    = T N (fun a b => minn J (K + K) <= a + b)%N (h x).
  by rewrite (T_diag N (fun n => minn J (K + K) <= n)%N); apply: eq_bigr => n _; rewrite diag_h.
apply: T_le => [a b _ /=|a b|a b]; first exact: not_kept.
  by rewrite /h mulr_ge0 ?u_ge0.
rewrite /g normrM ger0_norm; last by rewrite mulr_ge0 ?u_ge0.
rewrite -[X in _ <= X]mulr1; apply: ler_wpmul2l; first by rewrite mulr_ge0 ?u_ge0.
rewrite ler_norml; apply/andP; have := COS_bound ((a%:R - b%:R) * th)%Re; move=> [c1 c2].
by split; apply/RleP; [move: c1; toR; lra|exact: c2].
Qed.

Theorem S_error x th K J : 0 <= x -> (0 < J)%N ->
  (Rabs (exp (x * cos th) - S x th K J) <= ee x (minn J (K + K)) * exp x)%Re.
Proof.
move=> x0 J0.
have l1 : is_lim_seq (fun N => Rabs (\sum_(0 <= n < N.+1) ee (x * cos th) n - S x th K J)%Re)
    (Rabs (exp (x * cos th) - S x th K J)).
  apply: (is_lim_seq_abs _ (exp (x * cos th) - S x th K J)).
  by apply: is_lim_seq_minus'; [apply: ee_lim|apply: is_lim_seq_const].
have l2 : is_lim_seq (fun N => (ee x (minn J (K + K)) * \sum_(0 <= n < N.+1) ee x n)%R)
    (ee x (minn J (K + K)) * exp x)%Re.
  exact: (is_lim_seq_scal_l _ (ee x (minn J (K + K))) _ (@ee_lim x)).
apply: (is_lim_seq_le_loc _ _ _ _ _ l1 l2).
exists (K + K + J)%N => N /ssrnat.leP kN.
by have /RleP := S_partial th x0 J0 (leqW kN).
Qed.

(** At zero lag everything that is dropped is lost. *)
Lemma T_ge1 N (P : nat -> nat -> bool) f b :
  (forall a b, 0 <= f a b) -> (b < N)%N -> P 0%N b -> f 0%N b <= T N P f.
Proof.
move=> f0 bN pb; rewrite /T big_ltn; last by apply: leq_ltn_trans bN.
have e : f 0%N b <= \sum_(0 <= c < N | (0 + c < N)%N && P 0%N c) f 0%N c.
  rewrite big_mkcond (bigD1_seq b) ?mem_index_iota ?iota_uniq ?add0n ?bN ?pb //=.
  by rewrite ler_addl sumr_ge0 // => c _; case: ifP.
apply: le_trans e _; rewrite ler_addl sumr_ge0 // => a _; exact: sumr_ge0.
Qed.
Theorem S_lower x K J : 0 <= x -> (0 < J)%N ->
  (ee (x / 2%:R) J + S x 0 K J <= exp x)%Re.
Proof.
move=> x0 J0.
have l1 := @ee_lim x.
have l2 := is_lim_seq_const (ee (x / 2%:R) J + S x 0 K J)%R.
apply: (is_lim_seq_le_loc _ _ _ _ _ l2 l1).
exists (K + K + J)%N => N /ssrnat.leP kN; apply/RleP.
have -> : \sum_(0 <= n < N.+1) ee x n = T N.+1 (fun _ _ => true) (h x).
  by rewrite (T_diag N.+1 predT); apply: eq_bigr => n _; rewrite diag_h.
have gh : T N.+1 (kept K J) (g x 0) = T N.+1 (kept K J) (h x).
  by apply: eq_T => // a b _; rewrite /g Rmult_0_r cos_0 mulr1.
rewrite (S_T _ _ J0 (leqW kN)) gh [X in _ <= X](T_split _ _ (kept K J)) addrC ler_add2l.
have -> : ee (x / 2) J = h x 0 J by rewrite /ee /h /u expr0 fact0 divr1 mul1r.
apply: T_ge1 => [a b||].
- by rewrite /h mulr_ge0 ?u_ge0.
- by rewrite ltnS (leq_trans _ kN) // leq_addl.
- by rewrite /= /kept min0n max0n subn0 ltnn andbF.
Qed.
