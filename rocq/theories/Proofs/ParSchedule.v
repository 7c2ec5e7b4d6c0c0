(** Every bracketing of the filtering or smoothing elements gives the same product. *)
From Coq Require Import Reals String Lra.
From mathcomp Require Import all_ssreflect all_algebra.
From Verif.Prelude Require Import Rstruct Psd.
From Verif.Spec Require Import Schedule Markov Lti WfKernel Data.
From Verif.Model Require Import Array Jax Ssm Sequential Parallel BaseKernels Kernel Frontend.
From Verif.Proofs Require Import SeqExact SeqMore KernelLti Fit FitMore AssocScan FilterElem ParExact ParFront.
Set Implicit Arguments.
Unset Strict Implicit.
Unset Printing Implicit Defensive.
Import Order.TTheory GRing.Theory Num.Theory.

Section Eval.
Variables (T : Type) (op : T -> T -> T) (ok : T -> Prop).
Hypothesis okop : forall a b, ok a -> ok b -> ok (op a b).
Hypothesis assoc : forall a b c, ok a -> ok b -> ok c -> op a (op b c) = op (op a b) c.
Lemma all_ok_cat s1 s2 : all_ok ok (s1 ++ s2) <-> all_ok ok s1 /\ all_ok ok s2.
Proof. by elim: s1 => [|x s IH] /=; [split=> // -[] | rewrite IH; split=> [[? []]|[[]]]]. Qed.
Lemma product_ok b : all_ok ok (elements b) -> ok (product op b).
Proof.
elim: b => [x []|l IHl r IHr] //= /all_ok_cat[h1 h2]; apply: okop; [exact: IHl | exact: IHr].
Qed.
Lemma foldl_ok x s : ok x -> all_ok ok s -> ok (foldl op x s).
Proof. by elim: s x => //= y s IH x ox [oy os]; apply: IH => //; apply: okop. Qed.
Lemma foldl_op x y s : ok x -> ok y -> all_ok ok s -> op x (foldl op y s) = foldl op (op x y) s.
Proof.
elim: s y => //= z s IH y ox oy [oz os]; rewrite IH ?assoc //; exact: okop.
Qed.
Lemma product_foldl b : all_ok ok (elements b) ->
  exists x s, elements b = x :: s /\ product op b = foldl op x s.
Proof.
elim: b => [x _|l IHl r IHr] /=; first by exists x, [::].
move=> /all_ok_cat[/[dup] h1 /IHl[x [s [e1 ->]]] /[dup] h2 /IHr[z [u [e2 ->]]]].
exists x, (s ++ z :: u); rewrite e1 e2; split=> //.
move: h1 h2; rewrite e1 e2 /= => -[ox os] [oz ou].
by rewrite foldl_cat /= foldl_op //; apply: foldl_ok.
Qed.
Lemma product_elements b b' : elements b = elements b' -> all_ok ok (elements b) ->
  product op b = product op b'.
Proof.
move=> e h; have [x [s [e1 ->]]] := product_foldl h.
by rewrite e in h e1; have [x' [s' [e2 ->]]] := product_foldl h; move: e2; rewrite e1 => -[<- <-].
Qed.
(** The running products of the whole list, whatever the bracketings. *)
Lemma prefixes_product x0 xs i b : all_ok ok xs -> (i < size xs)%N ->
  elements b = take i.+1 xs -> nth x0 (prefixes op xs) i = product op b.
Proof.
move=> h hi e; have h' : all_ok ok (elements b).
  by rewrite e; move: h; rewrite -{1}(cat_take_drop i.+1 xs) all_ok_cat => -[].
have [x [s [e1 ->]]] := product_foldl h'.
move: e1; rewrite e; case: xs {h e h'} hi => [//|x1 xs] /= hi [<- <-].
case: i hi => [|i] hi /=; first by rewrite take0.
by rewrite (nth_scanl x0).
Qed.
End Eval.

Section Filter.
Variables (F : realFieldType) (d : nat).
Lemma in_all_ok (T : Type) (P : T -> Prop) (s : seq T) :
  (forall x, List.In x s -> P x) -> all_ok P s.
Proof.
elim: s => //= x s IH h; split; first by apply: h; left.
by apply: IH => z hz; apply: h; right.
Qed.

Lemma filter_schedule (b b' : bracketing (felem F d)) : elements b = elements b' ->
  (forall e, List.In e (elements b) -> psdmx (fC e) /\ psdmx (fJ e)) ->
  product (@filter_combine F d) b = product (@filter_combine F d) b'.
Proof.
move=> e /in_all_ok h; apply: product_elements e h; first exact: ok_combine.
exact: filter_combine_assoc.
Qed.

Lemma filter_inverts (b b' : bracketing (felem F d)) :
  (forall e, List.In e (elements b ++ elements b') -> psdmx (fC e) /\ psdmx (fJ e)) ->
  let e := product (@filter_combine F d) b in let e' := product (@filter_combine F d) b' in
  (1%:M + fC e *m fJ e')%R \in unitmx /\ (1%:M + fJ e' *m fC e)%R \in unitmx.
Proof.
move=> /in_all_ok/all_ok_cat[h h'] e e'.
have oe : okf e by apply: product_ok h; exact: ok_combine.
have oe' : okf e' by apply: product_ok h'; exact: ok_combine.
by split; [exact: (unitD oe oe') | exact: (unitE oe oe')].
Qed.

Lemma smooth_schedule (b b' : bracketing (selem F d)) : elements b = elements b' ->
  product (@smooth_combine F d) b = product (@smooth_combine F d) b'.
Proof.
move=> e; apply: (@product_elements _ _ (fun _ => True)) => // [a1 a2 a3 _ _ _|].
  exact: smooth_combine_assoc.
by elim: (elements b).
Qed.
Lemma smooth_true (xs : seq (selem F d)) : all_ok (fun _ => True) xs.
Proof. by elim: xs. Qed.
End Filter.

Section Front.
Variables (k : kernel) (X : coords) (diag : option farray) (y : seq R).
Hypothesis wf : wf_kernel k.
Hypothesis co : const_obs k.
Hypothesis vd : valid_data X diag y.
Hypothesis kept : steps_kept k (times X).
Let N := num_coords X.
Let nd := variances diag N.
Let m := to_ssm (denote k).
Let t : seq R := times X.

Lemma front_params_ok e : List.In e (filter_params m t y nd) -> psdmx (fC e) /\ psdmx (fJ e).
Proof.
have v := vks wf.
have q0 := exact0 wf kept.
have v0 : mA (denote k) (CT 0) (CT 0) = 1%:M%R := vs_id v.
have h : all_ok (@okf _ _) (filter_params m t y nd).
  apply: params_ok.
  - by move=> s s'; apply: const_obsP.
  - exact: v0.
  - exact: pd_psd (vs_pinf v).
  - move=> i hi; change (psdmx (mQ (denote k) (CT 0) (CT (nth 0%R t i.+1 - nth 0%R t i)%R))).
    rewrite (exact_steps wf kept hi); apply: (vs_qpsd v).
    by rewrite subr_ge0; apply/RleP/(vd_sorted vd); rewrite leqnSn.
  - by move=> i; apply: (nd_pos vd).
  - exact: (N_pos vd).
elim: (filter_params m t y nd) h => //= a s IH [oa os] [<-|hs] //; exact: IH.
Qed.

Lemma scan_schedule i b : (i < N)%N -> elements b = take i.+1 (filter_params m t y nd) ->
  nth (FElem 0 0 0 0 0) (parallel_kalman_filter m t y nd) i = product (@filter_combine _ _) b.
Proof.
move=> hi e; have ok : all_ok (@okf _ _) (filter_params m t y nd) by apply: in_all_ok front_params_ok.
rewrite /parallel_kalman_filter (@associative_scanE _ _ (@okf _ _)) //.
- apply: (@prefixes_product _ _ (@okf _ _)) => //.
  + exact: ok_combine.
  + exact: filter_combine_assoc.
  + by rewrite /filter_params /= size_mkseq prednK //; apply: (N_pos vd).
- exact: ok_combine.
- exact: filter_combine_assoc.
Qed.
End Front.
