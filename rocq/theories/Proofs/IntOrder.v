(** The states of the integrated solvers, and the states picked for the data. *)
From Coq Require Import Reals String Lra.
From mathcomp Require Import all_ssreflect all_algebra.
From Verif.Prelude Require Import Rstruct.
From Verif.Spec Require Import IntCov Exposures.
From Verif.Model Require Import Array BaseKernels Kernel Integrated Frontend SequentialOps Gp.
From Verif.Proofs Require Import IntBook IntGram FitInt.
Set Implicit Arguments.
Unset Strict Implicit.
Unset Printing Implicit Defensive.
Import Order.TTheory GRing.Theory Num.Theory.

Lemma argsort_perm s N : perm_eq s (iota 0 N) ->
  [seq nth 0%N s i | i <- argsort s] = iota 0 N.
Proof.
move=> hp; rewrite /argsort.
have := @sort_map _ _ (nth 0%N s) leq (iota 0 (size s)).
rewrite map_nth_iota0 // take_size => <-.
rewrite -[RHS](sorted_sort leq_trans) ?iota_sorted //.
by apply/perm_sortP => //; [exact: leq_total|exact: leq_trans|exact: anti_leq].
Qed.

Lemma state_bookkeeping s tm dl inst : sv_X s = CTriple tm dl inst ->
  (forall i, (i < size tm)%N -> Rle 0 (nth 0%R dl i)) ->
  exists t obs st, int_state_coords s = SCtuple t inst obs st /\
  [/\ size t = (2 * size tm)%N, size obs = (2 * size tm)%N & size st = (2 * size tm)%N] /\
  (forall i j, (i <= j)%N -> (j < 2 * size tm)%N -> Rle (nth 0%R t i) (nth 0%R t j)) /\
  (forall i j, (i <= j)%N -> (j < 2 * size tm)%N -> nth 0%R t i = nth 0%R t j ->
     nth 0%N st j = 1%N -> nth 0%N st i = 1%N) /\
  (forall n, (n < size tm)%N ->
     exists a b, [/\ (a < 2 * size tm)%N, nth 0%N obs a = n, nth 0%N st a = 0%N &
                     nth 0%R t a = begin (exposure (sv_X s) n)] /\
                 [/\ (b < 2 * size tm)%N, nth 0%N obs b = n, nth 0%N st b = 1%N &
                     nth 0%R t b = finish (exposure (sv_X s) n)] /\
                 (Rlt 0 (len (exposure (sv_X s) n)) -> (a < b)%N) /\
                 forall c, (c < 2 * size tm)%N -> nth 0%N obs c = n -> c = a \/ c = b).
Proof.
move=> eX hl; rewrite /int_state_coords eX /x_tmid /x_delta /x_inst /=.
rewrite mul2n; do 3!eexists; split; first by [].
split; first by rewrite t_size obs_size state_size.
split; first by move=> i j; apply: t_le.
split.
  move=> i j ij hj e h; have := ends_first ij hj e.
  by rewrite h (state_nth dl (leq_ltn_trans ij hj)); case: odd => // /(_ erefl).
move=> n hn; exists (@IntBook.st _ tm dl n), (@en _ tm dl n).
rewrite (fi_exposure dl inst hn) -(st_begin _ inst) // -(en_finish _ inst) //.
have [o1 s1 _] := st_spec dl hn; have [o2 s2 _] := en_spec dl hn.
split; first by split=> //; apply: IntBook.st_lt.
split; first by split=> //; apply: en_lt.
split; first by move=> /= h; apply: st_before_en => //; apply/RltP.
move=> c hc e; case h: (nth 0%N (@stateid _ tm dl) c == 0%N).
  by left; rewrite (is_start hc (eqP h)) e.
by right; rewrite (is_end hc (negbT h)) e.
Qed.

(** project_at_data picks the end state of each exposure, in the order of the input. *)
Lemma data_indexE d (c : cstates d) tm dl inst : cs_X c = CTriple tm dl inst ->
  cs_obsid c = @obsid [realFieldType of R] tm dl -> cs_stateid c = @stateid [realFieldType of R] tm dl ->
  data_index c = [seq @en [realFieldType of R] tm dl n | n <- iota 0 (size tm)].
Proof.
move=> eX eo es; rewrite /data_index eX eo es /num_coords /=.
rewrite -/(@ends [realFieldType of R] tm dl).
have hp := @ends_obs_perm _ tm dl.
set s := [seq _ | i <- ends tm dl]; rewrite -/s in hp.
rewrite -[in RHS](argsort_perm hp) -map_comp; apply/eq_in_map => i.
rewrite mem_sort mem_iota add0n size_map ends_size => /andP[_ hi] /=.
rewrite (nth_map 0%N) ?ends_size //; set e := nth _ _ i.
have : e \in @ends [realFieldType of R] tm dl by rewrite mem_nth ?ends_size.
rewrite (perm_mem (ends_perm _ _)) => /mapP[n]; rewrite mem_iota add0n => /andP[_ hn] ->.
by have [->] := en_spec dl hn.
Qed.
Lemma data_order d (c : cstates d) tm dl inst : cs_X c = CTriple tm dl inst ->
  cs_obsid c = @obsid [realFieldType of R] tm dl -> cs_stateid c = @stateid [realFieldType of R] tm dl ->
  size (data_index c) = size tm /\
  forall n, (n < size tm)%N ->
    nth 0%N (cs_obsid c) (nth 0%N (data_index c) n) = n /\
    nth 0%N (cs_stateid c) (nth 0%N (data_index c) n) = 1%N.
Proof.
move=> eX eo es; rewrite (data_indexE eX eo es) size_map size_iota; split=> // n hn.
rewrite (nth_map 0%N) ?size_iota // nth_iota // eo es.
by have [-> -> _] := en_spec dl hn.
Qed.

Lemma condition_coords s y b r :
  so_condition int_ops s y b = inr r \/ so_condition int_par_ops s y b = inr r ->
  r_coords r = int_state_coords s.
Proof.
rewrite /= /int_solver_condition /int_par_solver_condition /traced_transition /int_par_guard.
case; first by case: transition_raises => //= -[<-].
by case: transition_raises => //=; case: ifP => //= _ [<-].
Qed.
Lemma data_order_coords d (c : cstates d) s tm dl inst t obs st : sv_X s = CTriple tm dl inst ->
  int_state_coords s = SCtuple t inst obs st ->
  cs_X c = sv_X s -> cs_obsid c = obs -> cs_stateid c = st ->
  size (data_index c) = size tm /\
  forall n, (n < size tm)%N ->
    nth 0%N (cs_obsid c) (nth 0%N (data_index c) n) = n /\
    nth 0%N (cs_stateid c) (nth 0%N (data_index c) n) = 1%N.
Proof.
move=> eX; rewrite /int_state_coords eX => -[_ eo es] cX co cs.
by apply: (data_order cX); rewrite ?co ?cs -?eo -?es.
Qed.
