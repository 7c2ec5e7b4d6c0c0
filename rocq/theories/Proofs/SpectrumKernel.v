(** Kernels whose correlations die out have a spectral density at every frequency. *)
From Coq Require Import Reals Lra String.
From mathcomp Require Import all_ssreflect all_algebra.
From mathcomp.real_closed Require Import mxtens.
From Coquelicot Require Import Coquelicot.
From mathcomp.real_closed Require Import complex.
From Verif.Prelude Require Import Rstruct Psd Zmod MxCalc.
From Verif.Spec Require Import Expm Integral Lti WfKernel Spectra.
From Verif.Model Require Import Array BaseKernels Kernel Spectrum.
From Verif.Proofs Require Import Expm MxInt Leaves LeafLti KernelLti Evaluate Spectrum SpectrumFourier PeriodicThms
  SpectrumThms SpectrumMore.
Set Implicit Arguments.
Unset Strict Implicit.
Unset Printing Implicit Defensive.
Import Order.TTheory GRing.Theory Num.Theory.
Local Open Scope ring_scope.

Lemma dec_mul f g : dec f -> dec g -> dec (fun T => Rmult (f T) (g T)).
Proof.
move=> h1 h2; have := @is_lim_mult f g p_infty R0 R0 h1 h2 I.
by rewrite /dec /= Rmult_0_r.
Qed.

Lemma decays_defined m w : declared_lti m -> decays m -> defined_at m w.
Proof.
move=> hd hA; rewrite /defined_at -row_free_unit; apply: inj_row_free => v.
rewrite [v]cx_split psd_matrixE; move: (map_mx (@complex.Re R) v) (map_mx (@complex.Im R) v) => a b.
rewrite cxM !mul_mx_scalar -[0]/(0 : 'M_(_, _)) => e.
have [e1 e2] : a *m mF m - w *: b = 0 /\ w *: a + b *m mF m = 0.
  by apply: cx_inj; rewrite e /cx !toC0 scaler0 addr0.
have aF : a *m mF m = w *: b by apply/eqP; rewrite -subr_eq0 e1.
have bF : b *m mF m = - (w *: a) by apply/eqP; rewrite -addr_eq0 addrC e2.
have dc x : der (fun s => cos (w * s)) x (- (w * sin (w * x)))%R.
  by rewrite /der; auto_derive => //; toR; ring.
have ds x : der (fun s => sin (w * s)) x (w * cos (w * x))%R.
  by rewrite /der; auto_derive => //; toR; ring.
have ra T : a *m expm (T *: mF m) = cos (w * T) *: a + sin (w * T) *: b.
  pose X t := cos (w * t) *: a + sin (w * t) *: b.
  have := @expm_unique_r _ _ (mF m) X; rewrite /X Rmult_0_r cos_0 sin_0 scale1r scale0r addr0 => <- // x.
  apply: mxd_eq (mxd_add (mxd_scale (dc x) (mxd_const a x)) (mxd_scale (ds x) (mxd_const b x))) _.
  rewrite !scaler0 !addr0 mulmxDl -!scalemxAl aF bF scalerN !scalerA [cos _ * w]mulrC [sin _ * w]mulrC scaleNr.
  by rewrite addrC.
have rb T : b *m expm (T *: mF m) = cos (w * T) *: b - sin (w * T) *: a.
  pose X t := cos (w * t) *: b - sin (w * t) *: a.
  have := @expm_unique_r _ _ (mF m) X; rewrite /X Rmult_0_r cos_0 sin_0 scale1r scale0r subr0 => <- // x.
  apply: mxd_eq (mxd_sub (mxd_scale (dc x) (mxd_const b x)) (mxd_scale (ds x) (mxd_const a x))) _.
  rewrite !scaler0 !addr0 mulmxBl -!scalemxAl aF bF scalerN !scalerA [cos _ * w]mulrC [sin _ * w]mulrC scaleNr.
  by zmod.
have z (c : 'rV[R]_(md m)) i : dec (fun T => (c *m expm (T *: mF m)) 0 i).
  apply: (dec_ext (f := fun T => \sum_j c 0 j * mA m (CT R0) (CT T) j i)).
    by move=> T; rewrite (lt_A hd) /lag /= Rminus_0_r mxE.
  by apply: lim_sum => j; apply: (@dec_scal (c 0 j)); apply: hA.
have zero i : Rplus (Rmult (a 0 i) (a 0 i)) (Rmult (b 0 i) (b 0 i)) = R0.
  have h : dec (fun T => Rplus (Rmult ((a *m expm (T *: mF m)) 0 i) ((a *m expm (T *: mF m)) 0 i))
                            (Rmult ((b *m expm (T *: mF m)) 0 i) ((b *m expm (T *: mF m)) 0 i))).
    by apply: dec_add; apply: dec_mul; apply: z.
  have h' : dec (fun=> Rplus (Rmult (a 0 i) (a 0 i)) (Rmult (b 0 i) (b 0 i))).
    apply: dec_ext h.
  move=> T; rewrite ra rb; rewrite !mxE.
  have := sin2_cos2 (Rmult w T); rewrite /Rsqr; toR.
  move: (cos _) (sin _) (a 0 i) (b 0 i) => c s p q h1.
  transitivity (Rmult (Rplus (Rmult s s) (Rmult c c)) (Rplus (Rmult p p) (Rmult q q))); first by ring.
  by rewrite h1 Rmult_1_l.
  have := is_lim_unique _ _ _ h'; rewrite Lim_const; by case.
have [a0 b0] : a = 0 /\ b = 0.
  by split; apply/rowP=> i; rewrite [RHS]mxE; have := zero i; toR; nra.
by rewrite a0 b0 /cx !toC0 scaler0 addr0.
Qed.

Lemma decays_sum m1 m2 : decays m1 -> decays m2 -> decays (sum_model m1 m2).
Proof.
move=> h1 h2 p q; rewrite -(splitK p) -(splitK q); case: (split p) => i'; case: (split q) => j' /=.
- by apply: dec_ext (h1 i' j') => T; rewrite block_mxEul.
- by apply: dec_ext (is_lim_const R0 p_infty) => T; rewrite block_mxEur mxE.
- by apply: dec_ext (is_lim_const R0 p_infty) => T; rewrite block_mxEdl mxE.
- by apply: dec_ext (h2 i' j') => T; rewrite block_mxEdr.
Qed.
Lemma decays_product m1 m2 : decays m1 -> decays m2 -> decays (product_model m1 m2).
Proof.
move=> h1 h2 i j.
case: (mxtens_indexP i) => i1 i2; case: (mxtens_indexP j) => j1 j2.
apply: (dec_ext (f := fun T => Rmult (mA m1 (CT R0) (CT T) i1 j1) (mA m2 (CT R0) (CT T) i2 j2))).
  by move=> T; rewrite /= tensmxE.
by apply: dec_mul.
Qed.

(** The entries of the transition matrix stay bounded. *)
Definition bounded (m : model) : Prop :=
  forall i j, exists C : R, forall T, Rle (Rabs (mA m (CT R0) (CT T) i j)) C.

Lemma cosine_bounded l s : bounded (cosine_model l s).
Proof.
move=> i j; exists R1 => T; ordcase i; ordcase j; mxsimp; rewrite ?Rabs_Ropp; apply: Rabs_le.
all: by first [apply: COS_bound | apply: SIN_bound].
Qed.
Lemma periodic_bounded n o l : bounded (periodic_model n o l).
Proof.
move=> i j; exists R1 => T; ordcase i; ordcase j; mxsimp; rewrite ?Rabs_Ropp; apply: Rabs_le.
all: by first [apply: COS_bound | apply: SIN_bound].
Qed.
Lemma constant_bounded s : bounded (constant_model s).
Proof. by move=> i j; exists R1 => T; ordcase i; ordcase j; mxsimp; rewrite Rabs_R1; apply: Rle_refl. Qed.
Lemma bounded_sum m1 m2 : bounded m1 -> bounded m2 -> bounded (sum_model m1 m2).
Proof.
move=> h1 h2 p q; rewrite -(splitK p) -(splitK q); case: (split p) => i'; case: (split q) => j' /=.
- by have [C hC] := h1 i' j'; exists C => T; rewrite block_mxEul.
- by exists R0 => T; rewrite block_mxEur mxE Rabs_R0; apply: Rle_refl.
- by exists R0 => T; rewrite block_mxEdl mxE Rabs_R0; apply: Rle_refl.
- by have [C hC] := h2 i' j'; exists C => T; rewrite block_mxEdr.
Qed.
Lemma bounded_product m1 m2 : bounded m1 -> bounded m2 -> bounded (product_model m1 m2).
Proof.
move=> h1 h2 i j.
case: (mxtens_indexP i) => i1 i2; case: (mxtens_indexP j) => j1 j2.
have [C1 hC1] := h1 i1 j1; have [C2 hC2] := h2 i2 j2; exists (Rmult C1 C2) => T.
rewrite /= tensmxE Rabs_mult; apply: Rmult_le_compat => //; exact: Rabs_pos.
Qed.
Lemma bounded_periodic J o l : bounded (periodic_sum J o l).
Proof.
elim: J => [|[|J] IH] /=; try exact: periodic_bounded.
by apply: bounded_sum => //; apply: periodic_bounded.
Qed.
Lemma decays_bounded m1 m2 : decays m1 -> bounded m2 -> decays (product_model m1 m2).
Proof.
move=> h1 h2 i j.
case: (mxtens_indexP i) => i1 i2; case: (mxtens_indexP j) => j1 j2.
have [C hC] := h2 i2 j2.
apply: (dec_ext (f := fun T => Rmult (mA m2 (CT R0) (CT T) i2 j2) (mA m1 (CT R0) (CT T) i1 j1))).
  by move=> T; rewrite /= tensmxE; toR; rewrite Rmult_comm.
exact: dec_bnd hC _.
Qed.
Lemma bounded_decays m1 m2 : bounded m1 -> decays m2 -> decays (product_model m1 m2).
Proof.
move=> h2 h1 i j.
case: (mxtens_indexP i) => i2 i1; case: (mxtens_indexP j) => j2 j1.
have [C hC] := h2 i2 j2.
apply: (dec_ext (f := fun T => Rmult (mA m1 (CT R0) (CT T) i2 j2) (mA m2 (CT R0) (CT T) i1 j1))).
  by move=> T; rewrite /= tensmxE.
exact: dec_bnd hC _.
Qed.

Lemma steady_bounded k : steady k -> bounded (denote k).
Proof.
elim: k => //=.
- by move=> *; apply: constant_bounded.
- by move=> *; apply: cosine_bounded.
- by move=> *; apply: periodic_bounded.
- by move=> *; apply: bounded_periodic.
- by move=> k1 IH1 k2 IH2 [d1 d2]; apply: bounded_sum; [apply: IH1|apply: IH2].
- by move=> k1 IH1 k2 IH2 [d1 d2]; apply: bounded_product; [apply: IH1|apply: IH2].
Qed.
Lemma damped_decays k : wf_kernel k -> sharp_kernel k -> damped k -> decays (denote k).
Proof.
elim: k => //=.
- by move=> w q s _ [w0 [q0 _]] sh _; apply: sho_decays.
- by move=> l s _ [l0 _] _ _; apply: exp_decays.
- by move=> l s _ [l0 _] _ _; apply: m32_decays.
- by move=> l s _ [l0 _] _ _; apply: m52_decays.
- by move=> a k IH _ [_ wf] sh d; exact: (IH wf sh d).
- by move=> k1 IH1 k2 IH2 [w1 w2] [s1 s2] [d1 d2]; apply: decays_sum; [apply: IH1|apply: IH2].
- move=> k1 IH1 k2 IH2 [w1 w2] [s1 s2] [[d1 d2]|[[d1 d2]|[d1 d2]]].
  + by apply: decays_product; [apply: IH1|apply: IH2].
  + by apply: decays_bounded; [apply: IH1|apply: steady_bounded].
  + by apply: bounded_decays; [apply: steady_bounded|apply: IH2].
Qed.
Lemma steady_const k : steady k -> const_obs k.
Proof. by elim: k => //= k1 IH1 k2 IH2 [/IH1 h1 /IH2 h2]. Qed.
Lemma damped_const k : damped k -> const_obs k.
Proof.
elim: k => //= k1 IH1 k2 IH2; first by case=> /IH1 h1 /IH2 h2.
by case=> [[/IH1 h1 /IH2 h2]|[[/IH1 h1 /steady_const h2]|[/steady_const h1 /IH2 h2]]].
Qed.
