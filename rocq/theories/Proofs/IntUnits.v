(** Units, zero and direction of time, units of the data: integrated models. *)
From Coq Require Import Reals String Lra.
From mathcomp Require Import all_ssreflect all_algebra.
From Coquelicot Require Import Coquelicot.
From Verif.Prelude Require Import Rstruct Psd MxCalc.
From Verif.Spec Require Import Gp WfKernel CovOf LogNormal Data IntCov WfIntegrated Exposures Smoothable TestTimes
  Transform IntTransform.
From Verif.Model Require Import Array Jax Ssm Sequential BaseKernels Kernel Integrated Frontend
  SequentialOps Gp.
From Verif.Proofs Require Import GpExt KernelThms Evaluate Names Rename Fit FitAny FitThms FitRefute IntBook LagInt
  WindowCov WindowKernel IntGram IntExact FitInt IntThms FitIntCond IntCondThms IntPredThms DenseMore TransferUnits.
Set Implicit Arguments.
Unset Strict Implicit.
Unset Printing Implicit Defensive.
Import Order.TTheory GRing.Theory Num.Theory.
Local Open Scope R_scope.

(** Double integrals in another unit *)
Section Clock.
Variables (f h : R -> R) (a s : R).
Hypothesis fc : forall x, continuous f x.
Hypothesis hc : forall x, continuous h x.
Hypothesis fe : forall r, f (- r) = f r.
Hypothesis he : forall r, h (- r) = h r.
Hypothesis s0 : s <> 0.
Hypothesis hs : forall r, h (s * r) = f r.
Lemma clock_k1 r : k1 h (s * r) = s * k1 f r.
Proof.
rewrite /k1 -{1}(Rmult_0_r s) -{1}(Rplus_0_r (s * 0)) -{1}(Rplus_0_r (s * r)).
rewrite -(RInt_comp_lin h s 0 0 r); last by apply: cont_RInt.
rewrite (RInt_ext _ (fun x => scal s (f x))); last by move=> x _; rewrite Rplus_0_r hs.
by rewrite RInt_scal //; apply: cont_RInt.
Qed.
Lemma clock_k2 r : k2 h (s * r) = s ^ 2 * k2 f r.
Proof.
rewrite /k2 -{1}(Rmult_0_r s) -{1}(Rplus_0_r (s * 0)) -{1}(Rplus_0_r (s * r)).
rewrite -(RInt_comp_lin (k1 h) s 0 0 r); last by apply: cont_RInt => x; apply: k1_c.
rewrite (RInt_ext _ (fun x => scal (s ^ 2) (k1 f x))); last first.
  by move=> x _; rewrite Rplus_0_r clock_k1 /scal /= /mult /=; inR; ring.
by rewrite RInt_scal //; apply: cont_RInt => x; apply: k1_c.
Qed.
Variables X Y X' Y' : coord.
Hypotheses (mX : mid X' = clock a s (mid X)) (mY : mid Y' = clock a s (mid Y)).
Hypotheses (lX : len X' = Rabs s * len X) (lY : len Y' = Rabs s * len Y).
Let sp : 0 < Rabs s. Proof. exact: Rabs_pos_lt. Qed.
Let pos l : 0 < Rabs s * l <-> 0 < l.
Proof.
split=> hl; last exact: Rmult_lt_0_compat.
by apply: (Rmult_lt_reg_l (Rabs s)) => //; rewrite Rmult_0_r.
Qed.
Lemma clock_mean_cov : mean_cov h X' Y' = mean_cov f X Y.
Proof.
have ss : Rabs s = s \/ Rabs s = - s by rewrite /Rabs; case: Rcase_abs; [right|left].
have sq : Rabs s * Rabs s = s ^ 2 by rewrite -pow2_abs /=; ring.
case: (Rlt_dec 0 (len X)) => hX; case: (Rlt_dec 0 (len Y)) => hY.
- have hX' : 0 < len X' by rewrite lX; apply/pos.
  have hY' : 0 < len Y' by rewrite lY; apply/pos.
  rewrite !mean_cov_LL // /begin /finish mX mY lX lY /clock.
  case: ss => es; rewrite es.
    rewrite (_ : a + s * mid X + s * len X / 2 - (a + s * mid Y - s * len Y / 2)
      = s * ((mid X + len X / 2) - (mid Y - len Y / 2))); last by field.
    rewrite (_ : a + s * mid X - s * len X / 2 - (a + s * mid Y - s * len Y / 2)
      = s * ((mid X - len X / 2) - (mid Y - len Y / 2))); last by field.
    rewrite (_ : a + s * mid X + s * len X / 2 - (a + s * mid Y + s * len Y / 2)
      = s * ((mid X + len X / 2) - (mid Y + len Y / 2))); last by field.
    rewrite (_ : a + s * mid X - s * len X / 2 - (a + s * mid Y + s * len Y / 2)
      = s * ((mid X - len X / 2) - (mid Y + len Y / 2))); last by field.
    by rewrite !clock_k2; field; lra.
  rewrite (_ : a + s * mid X + - s * len X / 2 - (a + s * mid Y - - s * len Y / 2)
     = s * ((mid X - len X / 2) - (mid Y + len Y / 2))); last by field.
  rewrite (_ : a + s * mid X - - s * len X / 2 - (a + s * mid Y - - s * len Y / 2)
     = s * ((mid X + len X / 2) - (mid Y + len Y / 2))); last by field.
  rewrite (_ : a + s * mid X + - s * len X / 2 - (a + s * mid Y + - s * len Y / 2)
     = s * ((mid X - len X / 2) - (mid Y - len Y / 2))); last by field.
  rewrite (_ : a + s * mid X - - s * len X / 2 - (a + s * mid Y + - s * len Y / 2)
     = s * ((mid X + len X / 2) - (mid Y - len Y / 2))); last by field.
  by rewrite !clock_k2; field; lra.
- have hX' : 0 < len X' by rewrite lX; apply/pos.
  have hY' : ~ 0 < len Y' by rewrite lY pos.
  rewrite (mean_cov_LP hc hX' hY') (mean_cov_LP fc hX hY) /begin /finish mX mY lX /clock.
  case: ss => es; rewrite es.
    rewrite (_ : a + s * mid X + s * len X / 2 - (a + s * mid Y) = s * (mid X + len X / 2 - mid Y)); last by field.
    rewrite (_ : a + s * mid X - s * len X / 2 - (a + s * mid Y) = s * (mid X - len X / 2 - mid Y)); last by field.
    by rewrite !clock_k1; field; lra.
  rewrite (_ : a + s * mid X + - s * len X / 2 - (a + s * mid Y) = s * (mid X - len X / 2 - mid Y)); last by field.
  rewrite (_ : a + s * mid X - - s * len X / 2 - (a + s * mid Y) = s * (mid X + len X / 2 - mid Y)); last by field.
  by rewrite !clock_k1; field; lra.
- have hX' : ~ 0 < len X' by rewrite lX pos.
  have hY' : 0 < len Y' by rewrite lY; apply/pos.
  rewrite (mean_cov_PL hc hX' hY') (mean_cov_PL fc hX hY) /begin /finish mX mY lY /clock.
  case: ss => es; rewrite es.
    rewrite (_ : a + s * mid X - (a + s * mid Y + s * len Y / 2) = s * (mid X - (mid Y + len Y / 2))); last by field.
    rewrite (_ : a + s * mid X - (a + s * mid Y - s * len Y / 2) = s * (mid X - (mid Y - len Y / 2))); last by field.
    by rewrite !clock_k1; field; lra.
  rewrite (_ : a + s * mid X - (a + s * mid Y + - s * len Y / 2) = s * (mid X - (mid Y - len Y / 2))); last by field.
  rewrite (_ : a + s * mid X - (a + s * mid Y - - s * len Y / 2) = s * (mid X - (mid Y + len Y / 2))); last by field.
  by rewrite !clock_k1; field; lra.
- have hX' : ~ 0 < len X' by rewrite lX pos.
  have hY' : ~ 0 < len Y' by rewrite lY pos.
  by rewrite !mean_cov_PP // mX mY /clock -hs; congr h; ring.
Qed.
End Clock.

Lemma scale_mean_cov (f : R -> R) c X Y : (forall x, continuous f x) ->
  mean_cov (fun r => c * f r) X Y = c * mean_cov f X Y.
Proof.
move=> fc; have cc x : continuous (fun r => c * f r) x by apply: (continuous_scal_r c f).
have a1 r : k1 (fun r => c * f r) r = c * k1 f r by rewrite /k1 (RInt_scal f) //; apply: cont_RInt.
have a2 r : k2 (fun r => c * f r) r = c * k2 f r.
  rewrite /k2 (RInt_ext _ (fun r => c * k1 f r)); last by move=> x _; rewrite a1.
  by rewrite (RInt_scal (k1 f)) //; apply: cont_RInt => x; apply: k1_c.
case: (Rlt_dec 0 (len X)) => hX; case: (Rlt_dec 0 (len Y)) => hY.
- by rewrite !mean_cov_LL // !a2; field; lra.
- by rewrite !mean_cov_LP // !a1; field; lra.
- by rewrite !mean_cov_PL // !a1; field; lra.
- by rewrite !mean_cov_PP.
Qed.

Section Of.
Variables (k b : kernel) (X : coords) (diag : option farray) (y : seq R) (g : gp).
Hypothesis h : int_gp_of k b X diag y g.
Let N := num_coords X. Let xs := coord_list X. Let d := variances diag N.
Let kern := integrated_cov b.
Lemma io_cont x : continuous (fun r => covariance b (Rabs r)) x.
Proof. by case: h => wf eb _ _ _; exact: (wc_cont (kernel_wincov wf eb)). Qed.
Lemma io_even r : covariance b (Rabs (- r)) = covariance b (Rabs r).
Proof. by rewrite Rabs_Ropp. Qed.
Lemma io_log : gp_log_probability smolgp_ops g y = inr (Fin (log_normal (CT 0) kern xs d y)).
Proof. by case: h => wf eb ve sk [mean [sa [hs hg]]]; exact: (int_log_probability wf eb hs ve sk hg). Qed.
Lemma io_det : 0 < gp_det (CT 0) kern xs d.
Proof.
case: h => wf eb ve sk _; rewrite /d /kern /xs /N.
have [tm [dl [inst e]]] := triple ve; move: ve sk; rewrite e => ve' sk'.
rewrite (fi_det wf eb ve' sk'); apply/RltP; rewrite big_seq; apply: prodr_gt0 => i /ends_in[h1 h2].
have w := kernel_wincov wf eb.
have pos j (hj : (j < size tm)%N) : (0 < (variances diag (size tm))`_j)%R := introT (RltP _ _) (fi_nd ve' hj).
exact: (@ie_Spos [realFieldType of R] (md (denote k)) _ _ (map (mH (denote k)) (coord_list (CTriple tm dl inst))) (mReset (denote k)) (variances diag (size tm)) y tm dl inst (mPinf (denote k)) (win_psd_P w) (win_psd_Q0 w (fi_step0 ve' sk')) (@win_psd_Q _ _ _ _ w tm dl (fi_step sk')) pos (fi_N0 ve') _ h1 h2).
Qed.
Lemma io_cond lp c : smooth_of k X -> gp_condition smolgp_ops g y None None = inr (lp, c) ->
  [/\ lp = Fin (log_normal (CT 0) kern xs d y),
    g_mean c = [seq gp_mean (CT 0) kern xs d y x | x <- xs],
    g_var c = Some (Vector [seq gp_var (CT 0) kern xs d x | x <- xs]) &
    forall ts, int_tests_kept k X ts -> predicts c (CArray ts) [seq gp_mean (CT 0) kern xs d y (CT u) | u <- ts]
      [seq gp_var (CT 0) kern xs d (CT u) | u <- ts]].
Proof.
case: h => wf eb ve sk [mean [sa [hs hg]]] [nk so] hc.
have [-> _ -> ->] := IntCondThms.int_condition wf eb ve sk nk so hs hg hc.
by split=> // ts tk y'; apply: (int_predict y' wf eb ve sk nk so hs hg hc tk).
Qed.
End Of.

(** Time *)
Section Time.
Variables (k k' b b' : kernel) (t dl : seq R) (inst : seq nat) (diag : option farray) (y : seq R) (a s : R) (g g' : gp).
Let X := CTriple t dl inst. Let X' := clock_exposures a s X.
Hypothesis s0 : s <> 0.
Hypothesis cov : forall r, 0 <= r -> covariance b' (Rabs s * r) = covariance b r.
Hypothesis h : int_gp_of k b X diag y g.
Hypothesis h' : int_gp_of k' b' X' diag y g'.
Let F (x : coord) := match x with CT u => CT (clock a s u) | CX u l i => CX (clock a s u) (Rabs s * l) i end.
Let sizes : size dl = size t /\ size inst = size t. Proof. by case: h => _ _ /ve_triple. Qed.
Let kF x1 x2 : integrated_cov b x1 x2 = integrated_cov b' (F x1) (F x2).
Proof.
apply/esym; apply: (@clock_mean_cov _ _ a s (io_cont h) (io_cont h')) => //.
- by move=> r; rewrite Rabs_mult cov //; apply: Rabs_pos.
- by case: x1.
- by case: x2.
- by case: x1 => //= u; rewrite Rmult_0_r.
- by case: x2 => //= u; rewrite Rmult_0_r.
Qed.
Let xs'E : coord_list X' = [seq F x | x <- coord_list X].
Proof.
have [e1 e2] := sizes.
apply: (@eq_from_nth _ (CT 0)); first by rewrite size_map !size_mkseq size_map.
move=> i; rewrite size_mkseq size_map => hi; rewrite (nth_map (CT 0)) ?size_mkseq //.
by rewrite !nth_mkseq ?size_map //= !(nth_map 0) // e1.
Qed.
Let nE : num_coords X' = num_coords X. Proof. by rewrite /num_coords /= size_map. Qed.
Let nd := variances diag (num_coords X).
Lemma tm_log_normal : log_normal (CT 0) (integrated_cov b') (coord_list X') nd y
  = log_normal (CT 0) (integrated_cov b) (coord_list X) nd y.
Proof.
rewrite xs'E /log_normal (gp_det_map (CT 0) (CT 0) kF) (gp_quad_map (CT 0) (CT 0) kF).
by rewrite size_map.
Qed.
Lemma tm_mean x : gp_mean (CT 0) (integrated_cov b') (coord_list X') nd y (F x)
  = gp_mean (CT 0) (integrated_cov b) (coord_list X) nd y x.
Proof. by rewrite xs'E (gp_mean_map (CT 0) (CT 0) kF). Qed.
Lemma tm_var x : gp_var (CT 0) (integrated_cov b') (coord_list X') nd (F x)
  = gp_var (CT 0) (integrated_cov b) (coord_list X) nd x.
Proof. by rewrite xs'E (gp_var_map (CT 0) (CT 0) kF). Qed.
Lemma time_log_probability : gp_log_probability smolgp_ops g' y = gp_log_probability smolgp_ops g y.
Proof. by rewrite (io_log h) (io_log h') nE tm_log_normal. Qed.
Lemma time_condition lp c lp' c' : smooth_of k X -> smooth_of k' X' ->
  gp_condition smolgp_ops g y None None = inr (lp, c) ->
  gp_condition smolgp_ops g' y None None = inr (lp', c') ->
  [/\ lp' = lp, g_mean c' = g_mean c, g_var c' = g_var c &
    forall ts, int_tests_kept k X ts -> int_tests_kept k' X' [seq clock a s u | u <- ts] ->
      exists mu va, predicts c (CArray ts) mu va /\ predicts c' (CArray [seq clock a s u | u <- ts]) mu va].
Proof.
move=> so so' /(io_cond h so)[-> -> -> hp] /(io_cond h' so')[-> -> -> hp']; rewrite nE in hp' *.
split; first by rewrite tm_log_normal.
- by rewrite {2}xs'E -map_comp; apply: eq_map => x; exact: tm_mean.
- by rewrite {2}xs'E -map_comp; congr (Some (Vector _)); apply: eq_map => x; exact: tm_var.
- move=> ts kt kt'; do 2!eexists; split; first exact: hp kt.
  have := hp' _ kt'; rewrite -2!map_comp.
  rewrite [X in predicts _ _ X _ -> _](eq_map (fun u => tm_mean (CT u))).
  by rewrite [X in predicts _ _ _ X -> _](eq_map (fun u => tm_var (CT u))).
Qed.
End Time.

(** Data *)
Section Amplitude.
Variables (k k' b b' : kernel) (X : coords) (d y : seq R) (c : R) (g g' : gp).
Hypothesis c0 : c <> 0.
Hypothesis cov : forall r, 0 <= r -> covariance b' r = c ^ 2 * covariance b r.
Hypothesis sd : size d = num_coords X.
Let d' := [seq c ^ 2 * r | r <- d]. Let y' := [seq c * v | v <- y].
Hypothesis h : int_gp_of k b X (Some (Vector d)) y g.
Hypothesis h' : int_gp_of k' b' X (Some (Vector d')) y' g'.
Let xs := coord_list X.
Let kern := integrated_cov b. Let kern' := integrated_cov b'.
Let kk X1 X2 : kern' X1 X2 = c ^ 2 * kern X1 X2.
Proof.
rewrite /kern' /kern /integrated_cov -(scale_mean_cov _ _ _ (io_cont h)).
by apply: mean_cov_ext => r; apply: cov; apply: Rabs_pos.
Qed.
Let sy : size y = size xs. Proof. by rewrite size_coord_list; case: h => _ _ /ve_y. Qed.
Let sd' : size d = size xs. Proof. by rewrite size_coord_list. Qed.
Let vE : variances (Some (Vector d)) (num_coords X) = d. Proof. exact: varsE. Qed.
Let vE' : variances (Some (Vector d')) (num_coords X) = d'. Proof. by apply: varsE; rewrite size_map. Qed.
Let dp : 0 < gp_det (CT 0) kern xs d. Proof. by have := io_det h; rewrite vE. Qed.
Lemma unit_log_probability : exists l, gp_log_probability smolgp_ops g y = inr (Fin l) /\
  gp_log_probability smolgp_ops g' y' = inr (Fin (l - INR (num_coords X) * ln (Rabs c))).
Proof.
eexists; split; first exact: (io_log h).
by rewrite (io_log h') vE vE' (log_normal_units c0 kk sd' sy dp) size_coord_list.
Qed.
Lemma unit_condition lp co lp' co' : smooth_of k X -> smooth_of k' X ->
  gp_condition smolgp_ops g y None None = inr (lp, co) ->
  gp_condition smolgp_ops g' y' None None = inr (lp', co') ->
  g_mean co' = [seq c * m | m <- g_mean co] /\
  (exists va, g_var co = Some (Vector va) /\ g_var co' = Some (Vector [seq c ^ 2 * v | v <- va])) /\
  forall ts, int_tests_kept k X ts -> int_tests_kept k' X ts ->
    exists mu va, predicts co (CArray ts) mu va /\
      predicts co' (CArray ts) [seq c * m | m <- mu] [seq c ^ 2 * v | v <- va].
Proof.
have em x : gp_mean (CT 0) kern' xs d' y' x = c * gp_mean (CT 0) kern xs d y x by exact: mean_units.
have ev x : gp_var (CT 0) kern' xs d' x = c ^ 2 * gp_var (CT 0) kern xs d x by exact: var_units.
move=> so so' /(io_cond h so) [_ -> -> hp] /(io_cond h' so') [_ -> -> hp']; rewrite vE in hp *; rewrite vE' in hp' *.
split; first by rewrite -map_comp; apply: eq_map => x; exact: em.
split; first by eexists; split; first reflexivity; rewrite -map_comp; congr (Some (Vector _)); apply: eq_map => x; exact: ev.
move=> ts kt kt'; do 2!eexists; split; first exact: hp.
have := hp' _ kt'; rewrite -2!map_comp.
rewrite [X in predicts _ _ X _ -> _](eq_map (fun u => em (CT u))).
by rewrite [X in predicts _ _ _ X -> _](eq_map (fun u => ev (CT u))).
Qed.
End Amplitude.

(** The kernels that realise the changes of unit *)
Lemma base_documented k b : wf_integrated k -> base_kernel k = Some b -> documented b /\ wf_kernel b.
Proof.
elim: k b => //= [k1 IH1 k2 IH2|w q s n nm|l s n nm|l s n nm|l s n nm|l s n nm] b.
- case=> w1 w2; case e1: (base_kernel k1) => [b1|] //; case e2: (base_kernel k2) => [b2|] // [<-] /=.
  by have [d1 f1] := IH1 _ w1 e1; have [d2 f2] := IH2 _ w2 e2.
- by case=> h1 h2 [<-]; split=> //; case: h2 => [/negbTE|]; [right|left].
- by case=> h1 h2 [<-].
- by case=> h1 h2 [<-].
- by case=> h1 h2 [<-].
- by case=> h1 h2 [<-].
Qed.
Lemma int_amplify_base c k b : wf_integrated k -> base_kernel k = Some b ->
  base_kernel (int_amplify c k) = Some (amplify c b) /\
  forall r, covariance (amplify c b) r = c ^ 2 * covariance b r.
Proof.
move=> wf eb; split; last by move=> r; apply: covariance_amplify; have [] := base_documented wf eb.
elim: k b wf eb => //= [k1 IH1 k2 IH2|w q s n nm|l s n nm|l s n nm|l s n nm|l s n nm] b wf; try by case=> <-.
case: wf => w1 w2; case e1: (base_kernel k1) => [b1|] //; case e2: (base_kernel k2) => [b2|] // [<-] /=.
by rewrite (IH1 _ w1 e1) (IH2 _ w2 e2).
Qed.
Lemma int_dilate_base a k b : 0 < a -> wf_integrated k -> base_kernel k = Some b ->
  base_kernel (int_dilate a k) = Some (dilate a b) /\
  forall r, covariance (dilate a b) (a * r) = covariance b r.
Proof.
move=> a0 wf eb; split; last by have [d1 f1] := base_documented wf eb => r; apply: covariance_dilate.
elim: k b wf eb => //= [k1 IH1 k2 IH2|w q s n nm|l s n nm|l s n nm|l s n nm|l s n nm] b wf; try by case=> <-.
case: wf => w1 w2; case e1: (base_kernel k1) => [b1|] //; case e2: (base_kernel k2) => [b2|] // [<-] /=.
by rewrite (IH1 _ w1 e1) (IH2 _ w2 e2).
Qed.
