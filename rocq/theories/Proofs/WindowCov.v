(** Covariances of the states of an integrated kernel: the latent state and the running
    integrals since the last resets. *)
From Coq Require Import Reals Lra.
From mathcomp Require Import all_ssreflect all_algebra.
From Coquelicot Require Import Coquelicot.
From Verif.Prelude Require Import Rstruct Zmod Psd MxCalc.
From Verif.Spec Require Import Expm Integral Lti IntCov.
From Verif.Model Require Import Array Helpers BaseKernels IntegratedKernels.
From Verif.Proofs Require Import Expm MxInt VanLoan Lti Joint LagInt IntLeaf.
Set Implicit Arguments.
Unset Strict Implicit.
Unset Printing Implicit Defensive.
Import GRing.Theory.
Local Open Scope ring_scope.

Definition upd T (f : nat -> T) s x : nat -> T := fun j => if j == s then x else f j.

(** [wc_S tau a u]: covariance of the state at time tau when the integral of instrument j
    was last reset at a j (u j: never reset).  [wc_C X tau a]: covariance of that state
    with the measurement X, made before tau. *)
Record wincov (m : model) (n : nat) (kap : R -> R) (ok : R -> Prop) := Wincov {
  wc_S : R -> (nat -> R) -> (nat -> bool) -> 'M[R]_(md m);
  wc_C : coord -> R -> (nat -> R) -> 'cV[R]_(md m);
  wc_cont : forall x, continuous kap x;
  wc_even : forall x, kap (Ropp x) = kap x;
  wc_init : forall tau, mPinf m = wc_S tau (fun=> tau) (fun=> true);
  wc_step : forall tau dt a u, Rle 0 dt -> ok dt ->
    wc_S (Rplus tau dt) a u = mA m (CT R0) (CT dt) *m wc_S tau a u *m (mA m (CT R0) (CT dt))^T
       + mQ m (CT R0) (CT dt);
  wc_reset : forall s tau a u, (s < n)%N -> (forall j, Rle (a j) tau) ->
    mReset m s *m wc_S tau a u *m (mReset m s)^T = wc_S tau (upd a s tau) (upd u s false);
  wc_obs : forall X a u, (inst_of X < n)%N -> Rle 0 (len X) -> (forall j, Rle (a j) (finish X)) ->
    (Rlt 0 (len X) -> a (inst_of X) = begin X /\ u (inst_of X) = false) ->
    wc_S (finish X) a u *m (mH m X)^T = wc_C X (finish X) a;
  wc_Cstep : forall X tau dt a, wc_C X (Rplus tau dt) a = mA m (CT R0) (CT dt) *m wc_C X tau a;
  wc_Creset : forall X s tau a, (s < n)%N -> Rle 0 (len X) -> Rle (finish X) tau ->
    mReset m s *m wc_C X tau a = wc_C X tau (upd a s tau);
  wc_read : forall X X' a, (inst_of X' < n)%N -> Rle 0 (len X) -> Rle 0 (len X') ->
    Rle (finish X) (finish X') ->
    (Rlt 0 (len X') -> a (inst_of X') = begin X') ->
    (mH m X' *m wc_C X (finish X') a) 0 0 = mean_cov kap X X';
  wc_P : psdmx (mPinf m);
  wc_Q : forall dt, Rle 0 dt -> ok dt -> psdmx (mQ m (CT R0) (CT dt))
}.

(** ** One integrated kernel *)
Section Leaf.
Variables (b : model) (n : nat).
Variables (Phibar : R -> R -> 'M[R]_(md b)) (Qaug12 : R -> R -> 'M[R]_(md b, 1)) (Qaug22 : R -> R -> R).
Let m := @integrated_model b n Phibar Qaug12 Qaug22.
Let d := md b.
Variable ok : R -> Prop.
Hypothesis dl : declared_lti b.
Hypothesis hH : forall X, mH b X = unit_rows d 1.
Hypothesis d0 : (0 < d)%N.
Hypothesis hA : forall dt, mA m (CT R0) (CT dt) = expm (dt *: mF m).
Hypothesis hQ : forall dt, Rle 0 dt -> ok dt ->
  mQ m (CT R0) (CT dt) = Q_from_VanLoan (mF m) (mL m) (mQc m) dt.

Let F := mF b.
Let P := mPinf b.
Let W := mL b *m mQc b *m (mL b)^T.
Let h : 'M[R]_(1, d) := unit_rows d 1.
Let E s := expm (s *: F).
Let pb := Phibar_from_VanLoan F.
Let g s : 'cV[R]_d := pb s *m P *m h^T.
Let phi s : R := (h *m g s) 0 0.
Let kap r : R := (h *m E (Rabs r) *m P *m h^T) 0 0.
Let kapS r : R := (h *m E r *m P *m h^T) 0 0.

Lemma phi_der s : der phi s (kapS s).
Proof.
have := mxd_mull h (mxd_mulr h^T (mxd_mulr P (pb_der F s))).
by move/(_ 0 0); rewrite /kapS !mulmxA.
Qed.
Lemma kapS_c x : continuous kapS x.
Proof.
apply: ex_derive_continuous; exists ((h *m (F *m E x) *m P *m h^T) 0 0).
exact: (mxd_mulr h^T (mxd_mulr P (mxd_mull h (E_derl F x)))) 0 0.
Qed.
Lemma kap_c x : continuous kap x.
Proof.
apply: (continuous_comp Rabs kapS); first exact: continuous_Rabs.
exact: kapS_c.
Qed.
Lemma kap_even x : kap (Ropp x) = kap x. Proof. by rewrite /kap Rabs_Ropp. Qed.
Let Psi s : R := RInt phi 0 s.
Lemma phi_c x : continuous phi x.
Proof. by apply: ex_derive_continuous; exists (kapS x); apply: phi_der. Qed.
Lemma Psi_der s : der Psi s (phi s). Proof. exact: (der_RInt (f := phi) s phi_c). Qed.
Lemma phi_0 : phi 0 = 0. Proof. by rewrite /phi /g /pb pb_0 !mul0mx mulmx0 mxE. Qed.
Lemma Psi_0 : Psi 0 = 0. Proof. exact: RInt_point. Qed.
Lemma phi_k1 r : Rle 0 r -> phi r = k1 kap r.
Proof.
move=> r0; rewrite /k1 (RInt_ext _ kapS); last first.
  by move=> x; rewrite Rmin_left // Rmax_right // => -[x1 x2]; rewrite /kap Rabs_pos_eq //; lra.
rewrite (RInt_der (f := phi) 0 r phi_der kapS_c) phi_0.
by toR; lra.
Qed.
Lemma Psi_k2 r : Rle 0 r -> Psi r = k2 kap r.
Proof.
move=> r0; rewrite /k2 /Psi; apply: RInt_ext.
by move=> x; rewrite Rmin_left // Rmax_right // => -[x1 x2]; apply: phi_k1; lra.
Qed.

Lemma lyap : F *m P + P *m F^T + W = 0. Proof. by case: dl. Qed.
Lemma P_sym : P^T = P. Proof. by case: dl => _ [] + _ _ _ _. Qed.
Lemma W_psd : psdmx W. Proof. by case: dl. Qed.
Lemma g_0 : g 0 = 0. Proof. by rewrite /g /pb pb_0 !mul0mx. Qed.
Lemma g_der s : mxd g s (P *m h^T + F *m g s).
Proof.
apply: mxd_eq (mxd_mulr h^T (mxd_mulr P (pb_der F s))) _.
by rewrite pb_left !mulmxDl mul1mx !mulmxA.
Qed.

(** The covariance of the state. *)
Let G (tau : R) (a : nat -> R) : 'M[R]_(d, n) := \matrix_(i, j) g (Rminus tau (a j)) i 0.
Let Z (tau : R) (a : nat -> R) (u : nat -> bool) : 'M[R]_n := \matrix_(i, j)
  (Psi (Rminus tau (a i)) + Psi (Rminus tau (a j))
   - k2 kap (Rminus (a i) (a j)) + (if (i == j) && u i then 1 else 0)).
Lemma GE tau a i j : G tau a i j = g (Rminus tau (a j)) i 0. Proof. by rewrite [LHS]mxE. Qed.
Lemma GTE tau a i j : (G tau a)^T j i = g (Rminus tau (a j)) i 0. Proof. by rewrite [LHS]mxE GE. Qed.
Lemma ZE tau a u i j : Z tau a u i j = Psi (Rminus tau (a i)) + Psi (Rminus tau (a j))
   - k2 kap (Rminus (a i) (a j)) + (if (i == j) && u i then 1 else 0).
Proof. by rewrite [LHS]mxE. Qed.
Definition leaf_S tau a u : 'M[R]_(md m) := block_mx P (G tau a) (G tau a)^T (Z tau a u).

Lemma rows_h k (M : 'M[R]_(d, k)) i j : (unit_rows d n *m M) i j = (h *m M) 0 j.
Proof. by rewrite !mxE; apply: eq_bigr => l _; rewrite !mxE. Qed.

Lemma leaf_S_der a u s : mxd (fun s => leaf_S s a u) s
  (mF m *m leaf_S s a u + leaf_S s a u *m (mF m)^T + mL m *m mQc m *m (mL m)^T).
Proof.
have eF : mF m = block_mx F 0 (unit_rows d n) 0 by [].
have eW : mL m *m mQc m *m (mL m)^T = block_mx W 0 0 0 by apply: joint_W.
rewrite eW eF /leaf_S tr_block_mx !mulmx_block !add_block_mx !trmx0.
rewrite !mul0mx !mulmx0 !addr0 lyap.
have sh f c l : der f (Rminus s c) l -> der (fun s => f (Rminus s c)) s l.
  by move=> hf; apply: (@der_comp_shift f s (Ropp c) l hf).
have dG : mxd (fun s => G s a) s (F *m G s a + P *m (unit_rows d n)^T).
  move=> i j.
  have e1 : (F *m G s a) i j = (F *m g (Rminus s (a j))) i 0.
    by rewrite !mxE; apply: eq_bigr => k _; rewrite !mxE.
  have e2 : (P *m (unit_rows d n)^T) i j = (P *m h^T) i 0.
    by rewrite !mxE; apply: eq_bigr => k _; rewrite !mxE.
  have hg := g_der (Rminus s (a j)) i 0; move/sh: hg => hg.
  apply: (@der_ext (fun s => g (Rminus s (a j)) i 0)); first by move=> x; rewrite [RHS]mxE.
  by apply: der_eq hg _; rewrite mxE [RHS]mxE e1 e2 addrC.
apply: mxd_eq.
  apply: mxd_block; [exact: mxd_const|exact: dG|exact: mxd_tr dG|].
  have dZ : mxd (fun s => Z s a u) s (unit_rows d n *m G s a + (unit_rows d n *m G s a)^T).
    move=> i j; have e1 k l : (unit_rows d n *m G s a) k l = phi (Rminus s (a l)).
      by rewrite rows_h mxE /phi [RHS]mxE; apply: eq_bigr => q _; rewrite GE.
    have h1 := sh _ _ _ (Psi_der (Rminus s (a i))).
    have h2 := sh _ _ _ (Psi_der (Rminus s (a j))).
    have h3 := der_add (der_add h1 h2)
      (der_const (- k2 kap (Rminus (a i) (a j)) + (if (i == j) && u i then 1 else 0)) s).
    apply: (@der_ext _ _ _ _ _ (der_eq h3 _)) => [x|]; first by rewrite [RHS]mxE addrA.
    by rewrite [RHS]mxE [X in _ = _ + X]mxE !e1 addrC; toR; ring.
  exact: dZ.
by rewrite linearD /= !trmx_mul trmxK P_sym [X in block_mx _ _ X _]addrC.
Qed.

Lemma leaf_step tau dt a u : Rle 0 dt -> ok dt ->
  leaf_S (Rplus tau dt) a u
  = mA m (CT R0) (CT dt) *m leaf_S tau a u *m (mA m (CT R0) (CT dt))^T + mQ m (CT R0) (CT dt).
Proof.
move=> t0 kt; rewrite hA hQ //.
have := @lyap_flow _ _ (mF m) (mL m) (mQc m) (fun s => leaf_S (Rplus s tau) a u).
move=> /(_ _ dt) h1; rewrite Rplus_comm h1; first by rewrite Rplus_0_l.
by move=> s; apply: (@mxd_shift _ _ (fun s => leaf_S s a u) s tau); apply: leaf_S_der.
Qed.

Lemma leaf_init tau : mPinf m = leaf_S tau (fun=> tau) (fun=> true).
Proof.
have t0 : Rminus tau tau = 0 by toR; lra.
rewrite /leaf_S /= -/P; congr block_mx; apply/matrixP=> i j.
- by rewrite GE t0 g_0 !mxE.
- by rewrite GTE t0 g_0 !mxE.
- rewrite ZE [LHS]mxE t0 Psi_0 k2_0 andbT; toR; case: (i == j) => /=; lra.
Qed.

(** Resets *)
Lemma d_ge_slot s : (s < n)%N -> slot b n s = (d + s)%N.
Proof.
move=> sn; rewrite /slot /minn -/d; case: ifP => // /negbT; rewrite -leqNgt => h1.
by case: n sn h1 => // n'; rewrite ltnS addnS /= leq_add2l => h1 h2; have /eqP -> : s == n' by rewrite eqn_leq h1 h2.
Qed.
Definition Rs s : 'M[R]_n := diag_mx (\row_j if (j : nat) == s then 0 else 1).
Lemma leaf_Reset s : (s < n)%N -> mReset m s = block_mx 1%:M 0 0 (Rs s).
Proof.
move=> sn; rewrite /= d_ge_slot //; apply/matrixP=> i j.
case: (split_ordP i) => i' ->; case: (split_ordP j) => j' ->.
- rewrite block_mxEul !mxE (inj_eq (@lshift_inj _ _)).
  have hj : ((i' : nat) == (d + s)%N) = false.
    by apply/negP=> /eqP e; have := ltn_ord i'; rewrite e ltnNge leq_addr.
  by rewrite /= hj.
- by rewrite block_mxEur !mxE eq_lrshift.
- by rewrite block_mxEdl !mxE eq_rlshift.
- by rewrite block_mxEdr !mxE (inj_eq (@rshift_inj _ _)) eqn_add2l.
Qed.
Lemma Rs_mul k s (M : 'M[R]_(n, k)) i j : (Rs s *m M) i j = if (i : nat) == s then 0 else M i j.
Proof. by rewrite mul_diag_mx !mxE; case: eqP => _; rewrite ?mul0r ?mul1r. Qed.
Lemma mul_Rs k s (M : 'M[R]_(k, n)) i j : (M *m Rs s) i j = if (j : nat) == s then 0 else M i j.
Proof. by rewrite mul_mx_diag !mxE; case: eqP => _; rewrite ?mulr0 ?mulr1. Qed.
Lemma Rs_tr s : (Rs s)^T = Rs s. Proof. exact: tr_diag_mx. Qed.

Lemma leaf_reset s tau a u : (s < n)%N -> (forall j, Rle (a j) tau) ->
  mReset m s *m leaf_S tau a u *m (mReset m s)^T = leaf_S tau (upd a s tau) (upd u s false).
Proof.
move=> sn ha; rewrite leaf_Reset // /leaf_S tr_block_mx !mulmx_block !trmx0 trmx1 Rs_tr.
rewrite !mul0mx !mulmx0 !addr0 !add0r !mul1mx !mulmx1.
have t0 : Rminus tau tau = 0 by toR; lra.
have eG : G tau a *m Rs s = G tau (upd a s tau).
  apply/matrixP=> i j; rewrite mul_Rs !GE /upd; case: eqP => e //.
  by rewrite t0 g_0 mxE.
have eG' : Rs s *m (G tau a)^T = (G tau (upd a s tau))^T by rewrite -eG trmx_mul Rs_tr.
congr block_mx => //.
apply/matrixP=> i j; rewrite mul_Rs Rs_mul !ZE /upd.
have kk x : k2 kap (Rminus tau x) = k2 kap (Rminus x tau).
  have -> : Rminus tau x = Ropp (Rminus x tau) by lra.
  by rewrite k2_even //; [exact: kap_c|exact: kap_even].
case: eqP => ej; case: eqP => ei.
- by rewrite t0 Psi_0 k2_0 andbF; toR; lra.
- have -> : (i == j) = false by apply/negP=> /eqP e; apply: ei; rewrite e.
  rewrite t0 Psi_0 /= -kk Psi_k2; last by have := ha i; lra.
  by toR; lra.
- have -> : (i == j) = false by apply/negP=> /eqP e; apply: ej; rewrite -e.
  rewrite t0 Psi_0 /= Psi_k2; last by have := ha j; lra.
  by toR; lra.
- by [].
Qed.

(** Measurements *)
Let Ct (X : coord) (tau : R) : 'cV[R]_d :=
  if Rlt_dec 0 (len X) then (len X)^-1 *: (g (Rminus tau (begin X)) - g (Rminus tau (finish X)))
  else E (Rminus tau (mid X)) *m P *m h^T.
Let Cb (X : coord) (tau : R) (a : nat -> R) (j : nat) : R :=
  if Rlt_dec 0 (len X) then (len X)^-1 * (Psi (Rminus tau (begin X)) - Psi (Rminus tau (finish X))
     - k2 kap (Rminus (a j) (begin X)) + k2 kap (Rminus (a j) (finish X)))
  else phi (Rminus tau (mid X)) - k1 kap (Rminus (a j) (mid X)).
Definition leaf_C X tau a : 'cV[R]_(md m) := col_mx (Ct X tau) (\col_j Cb X tau a j).

Lemma leaf_C_der X a s : mxd (fun s => leaf_C X s a) s (mF m *m leaf_C X s a).
Proof.
have eF : mF m = block_mx F 0 (unit_rows d n) 0 by [].
have sh f c l : der f (Rminus s c) l -> der (fun s => f (Rminus s c)) s l.
  by move=> hf; apply: (@der_comp_shift f s (Ropp c) l hf).
have shm p q (f : R -> 'M[R]_(p, q)) c l : mxd f (Rminus s c) l -> mxd (fun s => f (Rminus s c)) s l.
  by move=> hf; apply: (@mxd_shift _ _ f s (Ropp c) l hf).
rewrite eF /leaf_C mul_block_col !mul0mx !addr0.
have d1 : mxd (Ct X) s (F *m Ct X s).
  rewrite /Ct; case: Rlt_dec => hl.
    have h1 := mxd_sub (shm _ _ _ _ _ (g_der (Rminus s (begin X)))) (shm _ _ _ _ _ (g_der (Rminus s (finish X)))).
    apply: mxd_eq (mxd_scale (der_const (len X)^-1 s) h1) _.
    rewrite scale0r add0r -scalemxAr; congr (_ *: _); rewrite mulmxBr.
    by zmod.
  apply: mxd_eq (mxd_mulr h^T (mxd_mulr P (shm _ _ _ _ _ (E_derl F (Rminus s (mid X)))))) _.
  by rewrite !mulmxA.
have d2 : mxd (fun s => \col_j Cb X s a j) s (unit_rows d n *m Ct X s).
  move=> j z; rewrite rows_h ord1.
  apply: (@der_ext (fun s => Cb X s a j)); first by move=> x; rewrite [RHS]mxE.
  rewrite /Cb /Ct; case: Rlt_dec => hl.
    have h1 := der_add (der_add (sh _ _ _ (Psi_der (Rminus s (begin X))))
       (der_opp (sh _ _ _ (Psi_der (Rminus s (finish X))))))
       (der_const (- k2 kap (Rminus (a j) (begin X)) + k2 kap (Rminus (a j) (finish X))) s).
    have h2 := der_mul (der_const (len X)^-1 s) h1.
    apply: (@der_ext _ _ _ _ _ (der_eq h2 _)) => [x|]; first by rewrite addrA.
    rewrite -scalemxAr mxE mulmxBr [in RHS]mxE [X in _ = _ * (_ + X)]mxE -/(phi _) -/(phi _).
    by toR; ring.
  have h1 := der_add (sh _ _ _ (phi_der (Rminus s (mid X)))) (der_const (- k1 kap (Rminus (a j) (mid X))) s).
  apply: der_eq h1 _; rewrite /kapS !mulmxA; toR; ring.
move=> i j; case: (split_ordP i) => i' ->.
  rewrite col_mxEu; apply: (@der_ext (fun s => Ct X s i' j)); last exact: d1.
  by move=> x; rewrite col_mxEu.
rewrite col_mxEd; apply: (@der_ext (fun s => (\col_j Cb X s a j) i' j)); last exact: d2.
by move=> x; rewrite col_mxEd.
Qed.

Lemma leaf_Cstep X tau dt a : leaf_C X (Rplus tau dt) a = mA m (CT R0) (CT dt) *m leaf_C X tau a.
Proof.
rewrite hA; have := @lin_flow _ (mF m) (fun s => leaf_C X (Rplus s tau) a) _ dt.
rewrite Rplus_comm Rplus_0_l; apply.
by move=> s; apply: (@mxd_shift _ _ (fun s => leaf_C X s a) s tau); apply: leaf_C_der.
Qed.

Lemma leaf_Creset X s tau a : (s < n)%N -> Rle 0 (len X) -> Rle (finish X) tau ->
  mReset m s *m leaf_C X tau a = leaf_C X tau (upd a s tau).
Proof.
move=> sn l0 ft; rewrite leaf_Reset // /leaf_C mul_block_col !mul0mx addr0 add0r mul1mx.
congr col_mx; apply/matrixP=> i j; rewrite Rs_mul mxE [in RHS]mxE /Cb /upd.
case: ((i : nat) == s) => //; case: Rlt_dec => hl /=.
  have hb : Rle (begin X) tau by rewrite /begin; move: ft; rewrite /finish; lra.
  rewrite !Psi_k2; [|lra|lra].
  by toR; ring.
have [b1 b2] := begin_point hl l0; rewrite b2 in ft.
by rewrite phi_k1; [toR; ring|lra].
Qed.

Lemma leaf_latent : H_latent b n = row_mx h 0.
Proof.
apply/matrixP=> i j; rewrite mxE; case: (split_ordP j) => j' ->.
  by rewrite row_mxEl mxE.
rewrite row_mxEr mxE /=; case: eqP => // e.
by move: d0; rewrite /d; case: (md b) e.
Qed.
Lemma leaf_integral delta s : (s < n)%N ->
  H_integral b n delta s = row_mx 0 (\row_j if (j : nat) == s then 1 / delta else 0).
Proof.
move=> sn; apply/matrixP=> i j; rewrite mxE d_ge_slot //; case: (split_ordP j) => j' ->.
  rewrite row_mxEl mxE; case: eqP => // e.
  by have := ltn_ord j'; rewrite -[(j' : nat)]/(nat_of_ord (lshift n j')) e ltnNge leq_addr.
by rewrite row_mxEr mxE /= eqn_add2l.
Qed.
Lemma leaf_H1 X : ~ Rlt 0 (len X) -> mH m X = row_mx h 0.
Proof.
rewrite /= -leaf_latent; case: X => [t|t dt i] //= hl.
by case: RltbP.
Qed.
Lemma leaf_H2 X : (inst_of X < n)%N -> Rlt 0 (len X) ->
  mH m X = row_mx 0 (\row_j if (j : nat) == inst_of X then 1 / len X else 0).
Proof.
case: X => [t|t dt i] /= hi hl; first lra.
by rewrite -leaf_integral //; case: RltbP.
Qed.
Lemma pick k (M : 'M[R]_(n, k)) (x : R) s (sn : (s < n)%N) i j :
  ((\row_j if (j : nat) == s then x else 0) *m M) i j = x * M (Ordinal sn) j.
Proof.
rewrite mxE (bigD1 (Ordinal sn)) //= mxE eqxx big1 ?addr0 // => l ln.
rewrite mxE; case: eqP => e; last by rewrite mul0r.
by move/negP: ln; case; apply/eqP/val_inj.
Qed.
Lemma pickr k (M : 'M[R]_(k, n)) (x : R) s (sn : (s < n)%N) i j :
  (M *m (\row_j if (j : nat) == s then x else 0)^T) i j = x * M i (Ordinal sn).
Proof.
set v := (\row__ _).
have -> : M *m v^T = (v *m M^T)^T by rewrite trmx_mul trmxK.
by rewrite mxE (pick _ _ sn) [M^T _ _]mxE.
Qed.

Lemma leaf_obs X a u : (inst_of X < n)%N -> Rle 0 (len X) -> (forall j, Rle (a j) (finish X)) ->
  (Rlt 0 (len X) -> a (inst_of X) = begin X /\ u (inst_of X) = false) ->
  leaf_S (finish X) a u *m (mH m X)^T = leaf_C X (finish X) a.
Proof.
move=> hi l0 ha hs; rewrite /leaf_S /leaf_C /Ct /Cb.
have t0 x : Rminus x x = 0 by toR; lra.
have kk x y : k2 kap (Rminus y x) = k2 kap (Rminus x y).
  have -> : Rminus y x = Ropp (Rminus x y) by lra.
  by rewrite k2_even //; [exact: kap_c|exact: kap_even].
case: Rlt_dec => hl.
  have [a1 u1] := hs hl; rewrite leaf_H2 // tr_row_mx mul_block_col trmx0 !mulmx0 !add0r.
  congr col_mx; apply/matrixP=> i j; rewrite (pickr _ _ hi).
    by rewrite GE /= a1 t0 g_0 subr0 [RHS]mxE ord1; toR; ring.
  rewrite ZE [RHS]mxE /= a1 t0 Psi_0.
  have -> : (if (i == Ordinal hi) && u i then 1 else 0) = 0 :> R.
    by case: eqP => //= ->; rewrite /= u1.
  rewrite Psi_k2; last by have := ha i; lra.
  rewrite (kk (a i) (finish X)); toR; ring.
have [b1 b2] := begin_point hl l0.
rewrite leaf_H1 // tr_row_mx mul_block_col trmx0 !mulmx0 !addr0 b2 t0.
congr col_mx; first by rewrite /E scale0r expm0 mul1mx.
apply/matrixP=> i j; rewrite [RHS]mxE phi_0.
have -> : (( G (mid X) a)^T *m h^T) i j = phi (Rminus (mid X) (a i)).
  by rewrite -trmx_mul mxE /phi [LHS]mxE [RHS]mxE ord1; apply: eq_bigr => l _; rewrite GE.
have hai : Rle 0 (Rminus (mid X) (a i)) by have := ha i; rewrite b2; lra.
rewrite phi_k1 // /=.
have -> : Rminus (a i) (mid X) = Ropp (Rminus (mid X) (a i)) by lra.
by rewrite k1_odd; [toR; lra|exact: kap_c|exact: kap_even].
Qed.

Lemma leaf_read X X' a : (inst_of X' < n)%N -> Rle 0 (len X) -> Rle 0 (len X') ->
  Rle (finish X) (finish X') ->
  (Rlt 0 (len X') -> a (inst_of X') = begin X') ->
  (mH m X' *m leaf_C X (finish X') a) 0 0 = mean_cov kap X X'.
Proof.
move=> hi l0 l0' ff hs; rewrite /leaf_C /Ct /Cb.
have kk x y : k2 kap (Rminus y x) = k2 kap (Rminus x y).
  have -> : Rminus y x = Ropp (Rminus x y) by lra.
  by rewrite k2_even //; [exact: kap_c|exact: kap_even].
have kk1 x y : k1 kap (Rminus y x) = Ropp (k1 kap (Rminus x y)).
  have -> : Rminus y x = Ropp (Rminus x y) by lra.
  by rewrite k1_odd //; [exact: kap_c|exact: kap_even].
have fb : Rle (begin X) (finish X) by rewrite /begin /finish; lra.
have fb' : Rle (begin X') (finish X') by rewrite /begin /finish; lra.
case: (Rlt_dec 0 (len X')) => hl'.
  rewrite (leaf_H2 hi hl') mul_row_col mul0mx add0r (pick _ _ hi) mxE /= hs //.
  case: Rlt_dec => hl /=.
    rewrite mean_cov_LL //; [|exact: kap_c].
    rewrite !Psi_k2; [|lra|lra].
    rewrite (kk (finish X) (begin X')) (kk (begin X) (begin X')) (kk (finish X) (finish X')) (kk (begin X) (finish X')).
    by toR; field; lra.
  have [b1 b2] := begin_point hl l0; rewrite mean_cov_PL //; [|exact: kap_c].
  rewrite phi_k1; last by rewrite -b2; lra.
  rewrite (kk1 (mid X) (begin X')) (kk1 (mid X) (finish X')); toR; field; lra.
have [b1' b2'] := begin_point hl' l0'.
rewrite leaf_H1 // mul_row_col mul0mx addr0.
case: Rlt_dec => hl /=.
  rewrite mean_cov_LP //; [|exact: kap_c].
  rewrite -scalemxAr mxE mulmxBr mxE [X in _ * (_ + X)]mxE -/(phi _) -/(phi _) b2' !phi_k1; [|lra|lra].
  by rewrite (kk1 (begin X) (mid X')) (kk1 (finish X) (mid X')); toR; field; lra.
have [b1 b2] := begin_point hl l0; rewrite mean_cov_PP // /kap.
rewrite b2' !mulmxA Rabs_minus_sym Rabs_pos_eq //; last by rewrite -b2 -b2'; lra.
Qed.

Lemma leaf_P : psdmx (mPinf m).
Proof. by apply: psd_block; [case: dl => _ /pd_psd|apply: pd_psd; apply: pd1]. Qed.

Lemma leaf_Qp dt : Rle 0 dt -> ok dt -> psdmx (mQ m (CT R0) (CT dt)).
Proof.
move=> t0 k0; rewrite hQ //; apply: noise_psd_vl => //.
have -> : mL m *m mQc m *m (mL m)^T = block_mx W 0 0 0 by apply: joint_W.
apply: psd_block; [exact: W_psd|exact: psd0].
Qed.

Definition leaf_cov : R -> R := kap.
Definition leaf_wincov : wincov m n leaf_cov ok :=
  @Wincov m n leaf_cov ok leaf_S leaf_C kap_c kap_even leaf_init leaf_step leaf_reset leaf_obs
    leaf_Cstep leaf_Creset leaf_read leaf_P leaf_Qp.
End Leaf.
