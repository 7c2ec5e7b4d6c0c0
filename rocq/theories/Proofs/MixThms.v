(** Sums of integrated and instantaneous kernels: the theorems and concrete cases. *)
From Coq Require Import Reals String Lra.
From mathcomp Require Import all_ssreflect all_algebra.
From Coquelicot Require Import Coquelicot.
From Verif.Prelude Require Import Rstruct Psd.
From Verif.Spec Require Import Gp WfKernel Cov CovOf LogNormal Data IntCov WfIntegrated Exposures Mixed.
From Verif.Model Require Import Array BaseKernels IntegratedKernels Kernel Frontend Gp.
From Verif.Proofs Require Import GpExt Fit Expm MxInt LagInt FitInt IntThms IntExample FitMix ParIntRefute.
Set Implicit Arguments.
Unset Strict Implicit.
Unset Printing Implicit Defensive.
Local Open Scope R_scope.

Lemma mix_log_probability k n X diag mean sa y g : wf_mixed k -> has_integrated k -> serves n k ->
  valid_exposures n X diag y -> mixed_steps_kept k X -> default_integrated_solver sa ->
  gaussian_process smolgp_ops k X diag mean sa = inr g ->
  gp_log_probability smolgp_ops g y
  = inr (Fin (log_normal (CT 0) (mixed_cov finish k) (coord_list X) (variances diag (num_coords X)) y)).
Proof.
move=> wf hi sn ve sk hs hg.
have [tm [dl [inst e]]] : exists tm dl inst, X = CTriple tm dl inst.
  by case: X ve {sk hg} => [t|t d|t d i] /ve_triple // _; exists t, d, i.
subst X; exact: (thm_mix_log_probability wf hi sn ve sk hs hg).
Qed.
Lemma mix_defined k n X diag mean sa y : has_integrated k -> names_ok k ->
  valid_exposures n X diag y -> default_integrated_solver sa ->
  exists g, gaussian_process smolgp_ops k X diag mean sa = inr g /\ sv_kind (g_solver g) = IntegratedStateSpaceSolver.
Proof.
move=> hi nk ve hs.
have [tm [dl [inst e]]] : exists tm dl inst, X = CTriple tm dl inst.
  by case: X ve => [t|t d|t d i] /ve_triple // _; exists t, d, i.
subst X; have [g hg] := thm_mix_defined hi ve mean hs nk; exists g; split=> //.
by have [k' [_ ->]] := fm_gp hi ve hs hg.
Qed.

(** Exposures of one length. *)
Lemma mixed_cov_equal k X X' : len X = len X' -> mixed_cov finish k X X' = mixed_cov mid k X X'.
Proof.
move=> e; have h : finish X - finish X' = mid X - mid X' by rewrite /finish e; lra.
by elim: k => //=; rewrite ?h // => k1 -> k2 ->.
Qed.
Lemma mix_midpoints k n X diag mean sa y g : wf_mixed k -> has_integrated k -> serves n k ->
  valid_exposures n X diag y -> mixed_steps_kept k X -> default_integrated_solver sa ->
  (forall i j, (i < num_coords X)%N -> (j < num_coords X)%N -> len (exposure X i) = len (exposure X j)) ->
  gaussian_process smolgp_ops k X diag mean sa = inr g ->
  gp_log_probability smolgp_ops g y
  = inr (Fin (log_normal (CT 0) (mixed_cov mid k) (coord_list X) (variances diag (num_coords X)) y)).
Proof.
move=> wf hi sn ve sk hs el hg; rewrite (mix_log_probability wf hi sn ve sk hs hg).
congr (inr (Fin _)); rewrite /log_normal !gp_detE !gp_quadE size_coord_list.
have h i j : (i < num_coords X)%N -> (j < num_coords X)%N ->
    mixed_cov finish k (exposure X i) (exposure X j) = mixed_cov mid k (exposure X i) (exposure X j).
  by move=> h1 h2; apply: mixed_cov_equal; apply: el.
by rewrite (gpd_ext _ h) (gpq_ext _ _ h).
Qed.

(** ** A point and an exposure of one period of the integrated component *)
Definition k_mx : kernel := Sum (IntegratedCosine (1 / 2) 1 1 "a") (Cosine 1 1 "b").
Definition X_mx : coords := CTriple [:: 0; 1] [:: 0; 1 / 2] [:: 0; 0]%N.
Lemma k_mx_wf : wf_mixed k_mx.
Proof. by rewrite /=; repeat split=> //; toR; lra. Qed.
Lemma X_mx_valid : valid_exposures 1 X_mx (Some (Vector [:: 1; 1])) [:: 0; 0].
Proof.
split=> //.
- by case=> [|[|i]] // _; rewrite /exposure /=; toR; lra.
- by case=> [|[|i]].
- by case=> [|[|i]] // [|[|j]] // _ _ _; rewrite /begin /finish /exposure /=; toR; lra.
- by case=> [|[|i]] //= _; toR; lra.
Qed.

Lemma cos_abs l x : 0 < l -> cov_cosine l 1 (Rabs x) = cos (2 * PI / l * x).
Proof.
move=> l0; rewrite /cov_cosine.
have -> : - 2 * PI * Rabs x / l = - (2 * PI / l * Rabs x) by field; lra.
rewrite cos_neg; have [h|h] := Rle_dec 0 x; first by rewrite Rabs_pos_eq //; ring.
rewrite Rabs_left; last lra.
have -> : 2 * PI / l * - x = - (2 * PI / l * x) by ring.
by rewrite cos_neg; ring.
Qed.

Lemma wave u : RInt (fun v => cov_cosine (1 / 2) 1 (Rabs (u - v))) (3 / 4) (5 / 4) = 0.
Proof.
have E v : cov_cosine (1 / 2) 1 (Rabs (u - v)) = cos (4 * PI * (u - v)).
  by rewrite cos_abs; [congr cos; field|lra].
rewrite (RInt_ext _ (fun v => cos (4 * PI * (u - v)))) => [|v _]; last exact: E.
have p0 := PI_RGT_0.
have d x : is_derive (fun v => - (sin (4 * PI * (u - v)) / (4 * PI))) x (cos (4 * PI * (u - x))).
  auto_derive=> //; rewrite -[u + - x]/(u - x); move: (cos _) => z; by field; lra.
have c x : continuous (fun v => cos (4 * PI * (u - v))) x.
  by apply: ex_derive_continuous; auto_derive.
rewrite (is_RInt_unique _ _ _ _ (is_RInt_derive _ _ _ _ (fun x _ => d x) (fun x _ => c x))).
rewrite /minus /plus /opp /=.
have -> : 4 * PI * (u - 5 / 4) = 4 * PI * (u - 3 / 4) - 2 * PI by field.
have -> : sin (4 * PI * (u - 3 / 4) - 2 * PI) = sin (4 * PI * (u - 3 / 4)).
  by rewrite sin_minus cos_2PI sin_2PI; ring.
by field; lra.
Qed.

Lemma mx_cov at_ i j : (i < 2)%N -> (j < 2)%N ->
  mixed_cov at_ k_mx (exposure X_mx i) (exposure X_mx j)
  = (if (i == 0%N) && (j == 0%N) then 1 else 0) + cos (2 * PI * (at_ (exposure X_mx i) - at_ (exposure X_mx j))).
Proof.
move=> hi hj.
have nl : ~ 0 < 0 by lra.
have pl : 0 < 1 / 2 by lra.
have cE x : cov_cosine 1 1 (Rabs x) = cos (2 * PI * x).
  by rewrite cos_abs; [congr cos; field|lra].
have -> : mixed_cov at_ k_mx (exposure X_mx i) (exposure X_mx j) = integrated_cov (Cosine (1 / 2) 1 "a") (exposure X_mx i) (exposure X_mx j)
    + cov_cosine 1 1 (Rabs (at_ (exposure X_mx i) - at_ (exposure X_mx j))) by [].
rewrite cE.
congr (_ + _).
have m0 f : exposure_mean (exposure X_mx 0) f = f 0.
  by rewrite /exposure_mean; case: Rlt_dec.
have m1f f : exposure_mean (exposure X_mx 1) f = RInt f (3 / 4) (5 / 4) / (1 / 2).
  rewrite /exposure_mean; case: Rlt_dec => h; last by case: h.
  by congr (RInt _ _ _ / _); rewrite /begin /finish /=; field.
have m1 u : exposure_mean (exposure X_mx 1) (fun v => cov_cosine (1 / 2) 1 (Rabs (u - v))) = 0.
  by rewrite m1f wave; field.
rewrite /integrated_cov /mean_cov.
case: i j hi hj => [|[|i]] // [|[|j]] // _ _.
- by rewrite !m0 /= Rminus_eq_0 Rabs_R0 /cov_cosine Rmult_0_r /Rdiv Rmult_0_l cos_0; ring.
- by rewrite m0 m1.
- have e u : cov_cosine (1 / 2) 1 (Rabs (u - 0)) = cov_cosine (1 / 2) 1 (Rabs (0 - u)).
    by rewrite Rabs_minus_sym.
  rewrite m1f (RInt_ext _ (fun v => cov_cosine (1 / 2) 1 (Rabs (0 - v)))) => [|x _]; last by rewrite m0; exact: e.
  by rewrite wave /=; field.
- rewrite m1f (RInt_ext _ (fun=> 0)) => [|x _]; last exact: m1.
  by rewrite RInt_const /scal /= /mult /= Rmult_0_r /Rdiv Rmult_0_l.
Qed.

Lemma mx_log at_ c : cos (2 * PI * (at_ (exposure X_mx 0) - at_ (exposure X_mx 1))) = c ->
  log_normal (CT 0) (mixed_cov at_ k_mx) (coord_list X_mx) (variances (Some (Vector [:: 1; 1])) 2) [:: 0; 0]
  = - (1 / 2) * (0 + ln (6 - c ^ 2) + 2 * ln (2 * PI)).
Proof.
move=> hc; rewrite /log_normal gp_detE gp_quadE.
have -> : size (coord_list X_mx) = 2%N by [].
have s x : cos (2 * PI * (x - x)) = 1 by rewrite Rminus_eq_0 Rmult_0_r cos_0.
have hc' : cos (2 * PI * (at_ (exposure X_mx 1) - at_ (exposure X_mx 0))) = c.
  rewrite -hc -[RHS]cos_neg; congr cos; ring.
have cov := @mx_cov at_; rewrite /exposure in cov hc hc'.
rewrite det2 !cov // !s hc hc'.
have -> : gpq 2 (fun i j => mixed_cov at_ k_mx (nth (CT 0) (coord_list X_mx) i) (nth (CT 0) (coord_list X_mx) j))
   (variances (Some (Vector [:: 1; 1])) 2) [:: 0; 0] = 0.
  have c0 : col_of 2 [:: 0; 0] = 0%R :> 'cV[R]_2.
    by apply/matrixP=> i j; rewrite !mxE; elim/ord2: i.
  by rewrite /gpq /post_mean c0 mulmx0 mxE.
rewrite /=; congr (_ * (_ + ln _ + _)); toR; ring.
Qed.

Lemma mix_refuted : exists k n X diag y g,
  wf_mixed k /\ has_integrated k /\ serves n k /\ valid_exposures n X diag y /\ mixed_steps_kept k X /\
  gaussian_process smolgp_ops k X diag None NoSolver = inr g /\
  gp_log_probability smolgp_ops g y
  <> inr (Fin (log_normal (CT 0) (mixed_cov mid k) (coord_list X) (variances diag (num_coords X)) y)).
Proof.
have nok : names_ok k_mx by left=> /=; split; [move=> [h|[]]|split].
have hi : has_integrated k_mx by left.
have sn : serves 1 k_mx by [].
have sk : mixed_steps_kept k_mx X_mx by [].
have hs : default_integrated_solver NoSolver by left.
have [g [hg _]] := mix_defined None hi nok X_mx_valid hs.
exists k_mx, 1%N, X_mx, (Some (Vector [:: 1; 1])), [:: 0; 0], g.
refine (conj k_mx_wf (conj hi (conj sn (conj X_mx_valid (conj sk (conj hg _)))))).
rewrite (mix_log_probability k_mx_wf hi sn X_mx_valid sk hs hg).
have p0 := PI_RGT_0.
rewrite (@mx_log finish 0); last first.
  rewrite /finish /=; have -> : 2 * PI * (0 + 0 / 2 - (1 + 1 / 2 / 2)) = - (PI / 2 + 2 * PI) by field.
  by rewrite cos_neg cos_plus cos_PI2 sin_2PI; ring.
rewrite (@mx_log mid 1); last first.
  rewrite /=; have -> : 2 * PI * (0 - 1) = - (2 * PI) by ring.
  by rewrite cos_neg cos_2PI.
move=> [e]; have : ln (6 - 0 ^ 2) = ln (6 - 1 ^ 2).
  by move: (ln (6 - 0 ^ 2)) (ln (6 - 1 ^ 2)) (ln (2 * PI)) e => a b c; lra.
by move/ln_inv; lra.
Qed.

(** ** A satisfiable case of the theorems *)
Definition k_mix : kernel := Sum (IntegratedMatern32 2 1 2 "a") (Product (Matern52 3 1 "b") (Cosine 1 2 "c")).
Lemma k_mix_wf : wf_mixed k_mix.
Proof. by rewrite /=; repeat split=> //; toR; lra. Qed.
Lemma k_mix_kept X : mixed_steps_kept k_mix X.
Proof. by move=> s s' _ _ _ _; rewrite /=. Qed.
Definition X_eq : coords := CTriple [:: 0; 1; 5 / 4] [:: 1 / 2; 1 / 2; 1 / 2] [:: 0; 0; 1]%N.
Lemma X_eq_valid : valid_exposures 2 X_eq (Some (Vector [:: 1; 2; 1])) [:: 3; 4; 5].
Proof.
split=> //.
- by case=> [|[|[|i]]] // _; rewrite /exposure /=; toR; lra.
- by case=> [|[|[|i]]].
- by case=> [|[|[|i]]] // [|[|[|j]]] // _ _; rewrite /begin /finish /exposure //= => _; toR; lra.
- by case=> [|[|[|i]]] //= _; toR; lra.
Qed.
Lemma X_eq_len i j : (i < num_coords X_eq)%N -> (j < num_coords X_eq)%N ->
  len (exposure X_eq i) = len (exposure X_eq j).
Proof. by case: i j => [|[|[|i]]] // [|[|[|j]]]. Qed.
Lemma k_mix_names : names_ok k_mix.
Proof. by left=> /=; repeat split=> //; intuition discriminate. Qed.
