(** The front end with the sequential solver, for any kernel. *)
From Coq Require Import Reals String Lra.
From mathcomp Require Import all_ssreflect all_algebra.
From Verif.Prelude Require Import Rstruct Psd.
From Verif.Spec Require Import Gp Markov Lti WfKernel LogNormal Data.
From Verif.Model Require Import Array Jax Ssm Sequential BaseKernels Kernel Integrated Frontend
  SequentialOps Gp.
From Verif.Proofs Require Import StateCov SeqExact SeqIdeal SeqMore SeqGp SeqLinear GpExt Lti KernelLti
  Evaluate KernelThms Names Rename Fit.
Set Implicit Arguments.
Unset Strict Implicit.
Unset Printing Implicit Defensive.
Import Order.TTheory GRing.Theory Num.Theory.

Lemma squeeze_vec s : size s <> 1%N -> squeeze s = Vector s.
Proof. by case: s => [|x [|]]. Qed.
Lemma squeeze_vec' s v : squeeze s = Vector v -> v = s /\ size s <> 1%N.
Proof. by case: s => [|x [|x' s]] //= [<-]. Qed.

Lemma eq_mkseq_in T (f g : nat -> T) n : (forall i, (i < n)%N -> f i = g i) -> mkseq f n = mkseq g n.
Proof. by move=> h; apply/eq_in_map => i; rewrite mem_iota add0n => /andP[_ /h]. Qed.

Lemma mkseq_map T (x0 : coord) (f : coord -> T) X :
  mkseq (fun i => f (nth x0 X i)) (size X) = map f X.
Proof.
rewrite -[in RHS](mkseq_nth x0 X) /mkseq -map_comp; exact: eq_map.
Qed.

(** ** Any kernel, sequential solver *)
Section AnyKernel.
Variables (k : kernel) (X : coords) (diag : option farray) (y : seq R).
Let N := num_coords X.
Let nd := variances diag N.
Let m := denote k.
Let s := Solver StateSpaceSolver k X nd.
Let t : seq R := times X.
Let d := sdim_of s.
Variables (k' : kernel) (mf : coord -> R) (mv : seq R).
Let g := @Gp k' X mf mv None nd s None.
Hypothesis ek' : denote k' = m.
Hypothesis ni : gp_integrated k' = false.

Let o := KalmanFilter (to_ssm m) t y nd.
Let c_ b := seq_condition (to_ssm m) t y nd b.

Lemma any_log_probability : transition_raises false k = None ->
  gp_log_probability smolgp_ops g y = inr (compute_log_prob (map (@o_v _ _) o) (map (@o_S _ _) o)).
Proof. by move=> nr; rewrite /gp_log_probability /= /seq_kalman /traced_transition /= nr. Qed.

Lemma any_log_probability_raises e : transition_raises false k = Some e ->
  gp_log_probability smolgp_ops g y = inl e.
Proof. by move=> nr; rewrite /gp_log_probability /= /seq_kalman /traced_transition /= nr. Qed.

Definition at_data_mean comp : seq R :=
  mkseq (fun i => proj_mean (Frontend.obs_row d k' comp (nth (CT 0%R) (coord_list X) i))
                            (nth 0%R (c_ms (c_ true)) i)) N.
Definition at_data_var comp : seq R :=
  mkseq (fun i => proj_var (Frontend.obs_row d k' comp (nth (CT 0%R) (coord_list X) i))
                           (nth 0%R (c_Ps (c_ true)) i)) N.
Definition states_ : cstates d := inst_states X (fit_results k X diag y true).

Lemma any_condition comp : transition_raises false k = None ->
  gp_condition smolgp_ops g y None comp
  = (k'' <-- assign_unique_kernel_names k' ;;
     match squeeze (at_data_mean comp) with
     | Scalar _ => inl IndexError
     | Vector mu => inr (compute_log_prob (map (@o_v _ _) o) (map (@o_S _ _) o),
         @Gp k'' X (fun _ => 0%R) mu (Some (squeeze (at_data_var comp))) nd s (Some states_))
     end).
Proof.
move=> nr; rewrite (@gp_condition_inst StateSpaceSolver k k' X mf mv nd y
  (fit_results k X diag y true) (map (@o_v _ _) o) (map (@o_S _ _) o)) //.
- by rewrite /projected project_inst.
- by rewrite /= /seq_solver_condition /traced_transition /= nr.
Qed.

Lemma any_condition_raises e comp : transition_raises false k = Some e ->
  gp_condition smolgp_ops g y None comp = inl e.
Proof. by move=> nr; rewrite /gp_condition /= /seq_solver_condition /traced_transition /= nr. Qed.

Lemma any_condition_inr comp lp c : gp_condition smolgp_ops g y None comp = inr (lp, c) ->
  [/\ transition_raises false k = None, N <> 1%N,
      lp = compute_log_prob (map (@o_v _ _) o) (map (@o_S _ _) o) &
      exists k'', assign_unique_kernel_names k' = inr k'' /\
      c = @Gp k'' X (fun _ => 0%R) (at_data_mean comp) (Some (Vector (at_data_var comp))) nd s
            (Some states_)].
Proof.
case nr: (transition_raises false k) => [e|]; first by rewrite (any_condition_raises _ nr).
rewrite any_condition //; case e: (assign_unique_kernel_names k') => [//|k''] /=.
case es: (squeeze _) => [//|mu] [<- <-]; have [-> sz] := squeeze_vec' es.
rewrite size_mkseq in sz; split=> //; exists k''; split=> //.
by rewrite squeeze_vec // size_mkseq.
Qed.

(** predict on the conditioned process *)
Variables (k2 : kernel) (mu : seq R) (va : option farray).
Let c := @Gp k2 X (fun _ => 0%R) mu va nd s (Some states_).
Definition at_test (Xt : coords) i := @pr_point _ (to_ssm m) (c_ true) (nth 0%R (times Xt) i).
Definition test_mean (Xt : coords) comp : seq R :=
  mkseq (fun i => proj_mean (Frontend.obs_row d k2 comp (nth (CT 0%R) (coord_list Xt) i))
                            (at_test Xt i).1) (num_coords Xt).
Definition test_var (Xt : coords) comp : seq R :=
  mkseq (fun i => proj_var (Frontend.obs_row d k2 comp (nth (CT 0%R) (coord_list Xt) i))
                           (at_test Xt i).2) (num_coords Xt).

Lemma seq_predict_states Xt : transition_raises false k = None ->
  so_predict (smolgp_ops StateSpaceSolver) Xt (cs_call states_)
  = inr (map (@pr_point _ (to_ssm m) (c_ true)) (times Xt)).
Proof. by move=> nr; rewrite /= /seq_solver_predict /= /traced_transition /= nr. Qed.

Lemma any_predict Xt y' comp rv : transition_raises false k = None ->
  gp_predict smolgp_ops c (Some Xt) y' false comp rv
  = inr (existT prediction d
      (if rv then PMeanVar (squeeze (test_mean Xt comp)) (Some (squeeze (test_var Xt comp)))
       else PMean (squeeze (test_mean Xt comp)))).
Proof.
move=> nr; rewrite /gp_predict [g_states c]/= /gp_predict_conditioned.
rewrite [g_solver c]/= [sv_kind _]/= seq_predict_states //.
cbv beta iota delta [ebind].
have -> : mkseq (fun i => proj_mean ((match comp with Some name => Frontend.obs_row d (g_kernel c) (Some name)
      | None => Frontend.obs_row d (g_kernel c) None end) (nth (CT 0%R) (coord_list Xt) i))
      (nth 0%R (unzip1 (map (@pr_point _ (to_ssm m) (c_ true)) (times Xt))) i)) (size (coord_list Xt))
   = test_mean Xt comp.
  rewrite size_coord_list; apply: eq_mkseq_in => i hi.
  rewrite /unzip1 -map_comp (nth_map 0%R) //=.
  by case: comp.
have -> : mkseq (fun i => proj_var ((match comp with Some name => Frontend.obs_row d (g_kernel c) (Some name)
      | None => Frontend.obs_row d (g_kernel c) None end) (nth (CT 0%R) (coord_list Xt) i))
      (nth 0%R (unzip2 (map (@pr_point _ (to_ssm m) (c_ true)) (times Xt))) i)) (size (coord_list Xt))
   = test_var Xt comp.
  rewrite size_coord_list; apply: eq_mkseq_in => i hi.
  rewrite /unzip2 -map_comp (nth_map 0%R) //=.
  by case: comp.
by case: rv.
Qed.
End AnyKernel.
