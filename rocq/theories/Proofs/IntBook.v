(** The bookkeeping of the integrated solvers: the sorted exposure starts and ends. *)
From mathcomp Require Import all_ssreflect all_algebra.
From Verif.Model Require Import Integrated.
Set Implicit Arguments.
Unset Strict Implicit.
Unset Printing Implicit Defensive.
Import Order.TTheory GRing.Theory Num.Theory.
Local Open Scope ring_scope.

Lemma flatten2_size T (f g : nat -> T) N : size (flatten (mkseq (fun i => [:: f i; g i]) N)) = N.*2.
Proof.
rewrite size_flatten /shape /mkseq -map_comp sumnE big_map /=.
by rewrite sum_nat_const_nat || (rewrite big_const_seq count_predT size_iota; elim: N => //= n ->).
Qed.

Lemma flatten2_nth T (x0 : T) (f g : nat -> T) N k : (k < N.*2)%N ->
  nth x0 (flatten (mkseq (fun i => [:: f i; g i]) N)) k = if odd k then g k./2 else f k./2.
Proof.
elim: N f g k => // N IH f g k hk.
have -> : mkseq (fun i => [:: f i; g i]) N.+1
        = [:: f 0%N; g 0%N] :: mkseq (fun i => [:: f i.+1; g i.+1]) N.
  by rewrite /mkseq /= -[1%N]addn0 iotaDl -map_comp.
case: k hk => [|[|k]] //= hk; rewrite doubleS !ltnS in hk.
by rewrite IH // negbK.
Qed.

Section Book.
Variable F : realFieldType.
Variables (tmid delta : seq F).
Let N := size tmid.
Let st_time n := tmid`_n - delta`_n / 2%:R.
Let en_time n := tmid`_n + delta`_n / 2%:R.
Let K := N.*2.
Let sg := sortidx tmid delta.
Let le := state_le tmid delta.

Lemma tu_nth k : (k < K)%N -> (t_unsorted tmid delta)`_k = if odd k then en_time k./2 else st_time k./2.
Proof. exact: flatten2_nth. Qed.
Lemma su_nth k : (k < K)%N -> nth 0%N (stateid_unsorted tmid) k = odd k.
Proof. by move=> h; rewrite /stateid_unsorted flatten2_nth //; case: odd. Qed.
Lemma ou_nth k : (k < K)%N -> nth 0%N (obsid_unsorted tmid) k = k./2.
Proof. by move=> h; rewrite /obsid_unsorted flatten2_nth //; case: odd. Qed.

Lemma le_total : total le.
Proof.
move=> i j; rewrite /le /state_le; case: ltgtP => //= _.
exact: leq_total.
Qed.
Lemma le_trans' : transitive le.
Proof.
move=> j i k; rewrite /le /state_le => /orP[h1|/andP[/eqP e1 h1]] /orP[h2|/andP[/eqP e2 h2]].
- by rewrite (lt_trans h1 h2).
- by rewrite -e2 h1.
- by rewrite e1 h2.
- by rewrite e1 e2 eqxx (leq_trans h2 h1) orbT.
Qed.

Lemma sg_perm : perm_eq sg (iota 0 K).
Proof. by rewrite /sg /sortidx perm_sort flatten2_size. Qed.
Lemma sg_size : size sg = K. Proof. by rewrite (perm_size sg_perm) size_iota. Qed.
Lemma sg_uniq : uniq sg. Proof. by rewrite (perm_uniq sg_perm) iota_uniq. Qed.
Lemma sg_mem i : (i \in sg) = (i < K)%N. Proof. by rewrite (perm_mem sg_perm) mem_iota. Qed.
Lemma sg_lt k : (k < K)%N -> (nth 0%N sg k < K)%N.
Proof. by move=> h; rewrite -sg_mem mem_nth ?sg_size. Qed.
Lemma sg_sorted i j : (i <= j)%N -> (j < K)%N -> le (nth 0%N sg i) (nth 0%N sg j).
Proof.
have refl : reflexive le by move=> x; rewrite /le /state_le eqxx leqnn orbT.
move=> ij jK; apply: (sorted_leq_nth le_trans' refl) => //; rewrite ?inE ?sg_size //.
- exact: sort_sorted le_total _.
- exact: leq_ltn_trans jK.
Qed.
Lemma sg_index i : (i < K)%N -> (index i sg < K)%N /\ nth 0%N sg (index i sg) = i.
Proof. by move=> h; rewrite -{1}sg_size index_mem sg_mem nth_index // sg_mem. Qed.
Lemma sg_index_lt i j : (i < K)%N -> (j < K)%N -> ~~ le j i -> (index i sg < index j sg)%N.
Proof.
move=> hi hj; rewrite ltnNge; apply: contra => h.
have [h1 e1] := sg_index hi; have [h2 e2] := sg_index hj.
by have := sg_sorted h h1; rewrite e1 e2.
Qed.

(** ** The state arrays *)
Let t := t_states tmid delta.
Let obs := obsid tmid delta.
Let state := stateid tmid delta.
Let at_ k := nth 0%N sg k.

Lemma t_size : size t = K. Proof. by rewrite size_map sg_size. Qed.
Lemma obs_size : size obs = K. Proof. by rewrite size_map sg_size. Qed.
Lemma state_size : size state = K. Proof. by rewrite size_map sg_size. Qed.

Lemma half_lt k : (k < K)%N -> (k./2 < N)%N.
Proof. by move=> h; rewrite -ltn_double; apply: leq_ltn_trans h; rewrite -{2}[k]odd_double_half leq_addl. Qed.
Lemma obs_nth k : (k < K)%N -> nth 0%N obs k = (at_ k)./2.
Proof. by move=> h; rewrite (nth_map 0%N) ?sg_size // ou_nth // sg_lt. Qed.
Lemma state_nth k : (k < K)%N -> nth 0%N state k = odd (at_ k).
Proof. by move=> h; rewrite (nth_map 0%N) ?sg_size // su_nth // sg_lt. Qed.
Lemma t_nth k : (k < K)%N -> t`_k = if odd (at_ k) then en_time (at_ k)./2 else st_time (at_ k)./2.
Proof. by move=> h; rewrite (nth_map 0%N) ?sg_size // tu_nth // sg_lt. Qed.
Lemma obs_lt k : (k < K)%N -> (nth 0%N obs k < N)%N.
Proof. by move=> h; rewrite obs_nth // half_lt // sg_lt. Qed.

Lemma t_sorted i j : (i <= j)%N -> (j < K)%N -> t`_i <= t`_j.
Proof.
move=> ij jK; have iK := leq_ltn_trans ij jK; rewrite !(nth_map 0%N) ?sg_size //.
have := sg_sorted ij jK; rewrite /le /state_le => /orP[/ltW //|/andP[/eqP -> _]]; exact: lexx.
Qed.
(** At equal times ends come before starts. *)
Lemma ends_first i j : (i <= j)%N -> (j < K)%N -> t`_i = t`_j ->
  nth 0%N state i = 0%N -> nth 0%N state j = 0%N.
Proof.
move=> ij jK; have iK := leq_ltn_trans ij jK; rewrite !(nth_map 0%N) ?sg_size // => tt e.
have := sg_sorted ij jK; rewrite /le /state_le tt ltxx eqxx /= e leqn0.
by move/eqP.
Qed.

(** The start and the end of exposure n. *)
Definition st n := index n.*2 sg.
Definition en n := index n.*2.+1 sg.
Lemma dbl_lt n : (n < N)%N -> (n.*2 < K)%N. Proof. by rewrite ltn_double. Qed.
Lemma dblS_lt n : (n < N)%N -> (n.*2.+1 < K)%N. Proof. by rewrite ltn_Sdouble. Qed.
Lemma st_lt n : (n < N)%N -> (st n < K)%N. Proof. by move/dbl_lt/sg_index => -[]. Qed.
Lemma en_lt n : (n < N)%N -> (en n < K)%N. Proof. by move/dblS_lt/sg_index => -[]. Qed.
Lemma at_st n : (n < N)%N -> at_ (st n) = n.*2. Proof. by move/dbl_lt/sg_index => -[]. Qed.
Lemma at_en n : (n < N)%N -> at_ (en n) = n.*2.+1. Proof. by move/dblS_lt/sg_index => -[]. Qed.
Lemma half_dblS n : (n.*2.+1)./2 = n. Proof. by rewrite -[n.*2.+1]/(true + n.*2)%N half_bit_double. Qed.

Lemma st_spec n : (n < N)%N ->
  [/\ nth 0%N obs (st n) = n, nth 0%N state (st n) = 0%N & t`_(st n) = st_time n].
Proof.
move=> h; have h' := st_lt h; rewrite obs_nth // state_nth // t_nth // at_st //.
by rewrite odd_double doubleK.
Qed.
Lemma en_spec n : (n < N)%N ->
  [/\ nth 0%N obs (en n) = n, nth 0%N state (en n) = 1%N & t`_(en n) = en_time n].
Proof.
move=> h; have h' := en_lt h; rewrite obs_nth // state_nth // t_nth // at_en //.
by rewrite half_dblS /= odd_double.
Qed.

(** Every state is the start or the end of its exposure. *)
Lemma at_index k : (k < K)%N -> index (at_ k) sg = k.
Proof. by move=> h; rewrite index_uniq ?sg_size // sg_uniq. Qed.
Lemma kind k : (k < K)%N ->
  (nth 0%N state k = 0%N /\ k = st (nth 0%N obs k)) \/
  (nth 0%N state k = 1%N /\ k = en (nth 0%N obs k)).
Proof.
move=> h; rewrite state_nth // obs_nth //.
have := odd_double_half (at_ k); case: odd => /= e; [right|left]; split=> //.
  by rewrite /en -[LHS](at_index h) -add1n e.
by rewrite /st -[LHS](at_index h) -[in LHS]e.
Qed.
Lemma is_start k : (k < K)%N -> nth 0%N state k = 0%N -> k = st (nth 0%N obs k).
Proof. by move=> h e; case: (kind h) => -[] //; rewrite e. Qed.
Lemma is_end k : (k < K)%N -> nth 0%N state k != 0%N -> k = en (nth 0%N obs k).
Proof. by move=> h e; case: (kind h) => -[] // e'; rewrite e' eqxx in e. Qed.

Lemma en_inj n n' : (n < N)%N -> (n' < N)%N -> en n = en n' -> n = n'.
Proof. by move=> h h' e; have := at_en h; rewrite e at_en // => -[/double_inj]. Qed.
Lemma st_neq_en n n' : (n < N)%N -> (n' < N)%N -> st n != en n'.
Proof.
move=> h h'; apply/negP=> /eqP e; have [_ s1 _] := st_spec h; have [_ s2 _] := en_spec h'.
by rewrite e s2 in s1.
Qed.

(** The start of an exposure of positive length comes before its end. *)
Lemma st_before_en n : (n < N)%N -> 0 < delta`_n -> (st n < en n)%N.
Proof.
move=> h d0; apply: sg_index_lt; [exact: dbl_lt|exact: dblS_lt|].
rewrite /le /state_le !tu_nth ?dblS_lt ?dbl_lt // half_dblS doubleK /= odd_double.
have lt : st_time n < en_time n.
  by rewrite ltr_add2l -subr_gt0 opprK addr_gt0 ?divr_gt0 ?ltr0n.
by rewrite lt_gtF // gt_eqF.
Qed.
Lemma en_before_st n : (n < N)%N -> delta`_n = 0 -> (en n < st n)%N.
Proof.
move=> h d0; apply: sg_index_lt; [exact: dblS_lt|exact: dbl_lt|].
rewrite /le /state_le !tu_nth ?dblS_lt ?dbl_lt // half_dblS doubleK /= odd_double.
rewrite /st_time /en_time d0 mul0r addr0 subr0 ltxx eqxx /= !su_nth ?dblS_lt ?dbl_lt //=.
by rewrite odd_double.
Qed.
(** A start that comes before an end is strictly earlier. *)
Lemma st_en_lt m n : (m < N)%N -> (n < N)%N -> (st m < en n)%N -> st_time m < en_time n.
Proof.
move=> hm hn lt; have [_ s1 t1] := st_spec hm; have [_ s2 t2] := en_spec hn.
have := t_sorted (ltnW lt) (en_lt hn); rewrite t1 t2 le_eqVlt => /orP[/eqP e|//].
have := ends_first (ltnW lt) (en_lt hn); rewrite t1 t2 e s1 s2.
by move=> /(_ erefl erefl).
Qed.

(** ** The ends in order *)
Definition ends := nonzero_ones state N.

Lemma ones_filter : [seq i <- iota 0 (size state) | nth 0%N state i == 1%N]
  = [seq i <- iota 0 K | odd (at_ i)].
Proof.
rewrite state_size; apply: eq_in_filter => i; rewrite mem_iota add0n => /andP[_ h].
by rewrite state_nth //; case: odd.
Qed.
Lemma ones_perm : perm_eq [seq i <- iota 0 K | odd (at_ i)] [seq en n | n <- iota 0 N].
Proof.
apply: uniq_perm; first by rewrite filter_uniq ?iota_uniq.
  rewrite map_inj_in_uniq ?iota_uniq // => n n'; rewrite !mem_iota !add0n => /andP[_ h] /andP[_ h'].
  exact: en_inj.
move=> k; rewrite mem_filter mem_iota add0n leq0n /=.
apply/andP/mapP => [[o h]|[n]].
  exists (nth 0%N obs k); first by rewrite mem_iota add0n obs_lt.
  by apply: is_end => //; rewrite state_nth // o.
rewrite mem_iota add0n => /andP[_ h] ->; rewrite en_lt //.
by rewrite at_en //= odd_double.
Qed.
Lemma endsE : ends = [seq i <- iota 0 K | odd (at_ i)].
Proof.
rewrite /ends /nonzero_ones ones_filter.
have hs : size [seq i <- iota 0 K | odd (at_ i)] = N.
  by rewrite (perm_size ones_perm) size_map size_iota.
by rewrite take_cat hs ltnn subnn take0 cats0.
Qed.
Lemma ends_perm : perm_eq ends [seq en n | n <- iota 0 N].
Proof. by rewrite endsE ones_perm. Qed.
Lemma ends_size : size ends = N.
Proof. by rewrite (perm_size ends_perm) size_map size_iota. Qed.
Lemma ends_obs_perm : perm_eq [seq nth 0%N obs i | i <- ends] (iota 0 N).
Proof.
have := perm_map (nth 0%N obs) ends_perm; rewrite -map_comp.
have -> : [seq (nth 0%N obs \o en) n | n <- iota 0 N] = iota 0 N.
  rewrite -[RHS]map_id; apply/eq_in_map => n; rewrite mem_iota add0n => /andP[_ h] /=.
  by have [->] := en_spec h.
by [].
Qed.
End Book.
