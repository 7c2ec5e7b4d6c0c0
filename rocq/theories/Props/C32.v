(** C32: component predictions add up to the total. *)
From Coq Require Import Reals String.
From mathcomp Require Import all_ssreflect all_algebra.
From Verif.Prelude Require Import Rstruct Psd.
From Verif.Spec Require Import Expm Gp Lti WfKernel Cov CovOf LogNormal Data Components.
From Verif.Model Require Import Array Jax Ssm Sequential Parallel BaseKernels IntegratedKernels Kernel
  Integrated Frontend SequentialOps Gp.
From Verif.Proofs Require Import KernelThms FitThms FitExample Components ComponentThms NameThms.
Import GRing.Theory.
Local Open Scope R_scope.

(** k is a sum of any number of summands k_0, k_1, ... none of which is a product; kern and
    kerns i are the covariance functions of k and of k_i.  mu i and va i are the dense
    posterior mean and variance of component i. *)

Theorem C32_component_mean : forall k X diag mean sa y kern kerns g lp c, wf_kernel k -> const_obs k -> (forall k', List.In k' (summands k) -> ~ is_product k') ->
  names_free k \/ distinct (summand_names k) -> valid_data X diag y -> steps_kept k (times X) ->
  (forall X1 X2, kernel_evaluate false k X1 X2 = inr (kern X1 X2)) ->
  (forall i X1 X2, (i < size (summands k))%N ->
     kernel_evaluate false (nth (Constant 0 "") (summands k) i) X1 X2 = inr (kerns i X1 X2)) ->
  default_solver sa -> gaussian_process smolgp_ops k X diag mean sa = inr g ->
  gp_condition smolgp_ops g y None None = inr (lp, c) ->
  let xs := coord_list X in let d := variances diag (num_coords X) in
  let mu i := comp_mean (CT 0) (kerns i) kern xs d y in
  let va i := comp_var (CT 0) (kerns i) kern xs d in
  let name i := nth EmptyString (summand_names (g_kernel c)) i in
  forall i, (i < size (summands k))%N ->
  gp_component_mean c [:: name i] = inr (Vector (map (mu i) xs), Vector (map (va i) xs)).
Proof. exact (fun k X diag mean sa y kern kerns g lp c wf co np hn vd kept hk hks hs hg hc => thm_component_mean wf co np hn vd kept hk hks hs hg hc). Qed.
Print Assumptions C32_component_mean.

Theorem C32_all_component_means : forall k X diag mean sa y kern kerns g lp c, wf_kernel k -> const_obs k -> (forall k', List.In k' (summands k) -> ~ is_product k') ->
  names_free k \/ distinct (summand_names k) -> valid_data X diag y -> steps_kept k (times X) ->
  (forall X1 X2, kernel_evaluate false k X1 X2 = inr (kern X1 X2)) ->
  (forall i X1 X2, (i < size (summands k))%N ->
     kernel_evaluate false (nth (Constant 0 "") (summands k) i) X1 X2 = inr (kerns i X1 X2)) ->
  default_solver sa -> gaussian_process smolgp_ops k X diag mean sa = inr g ->
  gp_condition smolgp_ops g y None None = inr (lp, c) ->
  let xs := coord_list X in let d := variances diag (num_coords X) in
  let mu i := comp_mean (CT 0) (kerns i) kern xs d y in
  let va i := comp_var (CT 0) (kerns i) kern xs d in
  let name i := nth EmptyString (summand_names (g_kernel c)) i in
  gp_all_component_means c
  = inr [seq (name i, (Vector (map (mu i) xs), Vector (map (va i) xs))) | i <- iota 0 (size (summands k))].
Proof. exact (fun k X diag mean sa y kern kerns g lp c wf co np hn vd kept hk hks hs hg hc => thm_all_component_means wf co np hn vd kept hk hks hs hg hc). Qed.
Print Assumptions C32_all_component_means.

Theorem C32_predict_at_data : forall k X diag mean sa y kern kerns g lp c, wf_kernel k -> const_obs k -> (forall k', List.In k' (summands k) -> ~ is_product k') ->
  names_free k \/ distinct (summand_names k) -> valid_data X diag y -> steps_kept k (times X) ->
  (forall X1 X2, kernel_evaluate false k X1 X2 = inr (kern X1 X2)) ->
  (forall i X1 X2, (i < size (summands k))%N ->
     kernel_evaluate false (nth (Constant 0 "") (summands k) i) X1 X2 = inr (kerns i X1 X2)) ->
  default_solver sa -> gaussian_process smolgp_ops k X diag mean sa = inr g ->
  gp_condition smolgp_ops g y None None = inr (lp, c) ->
  let xs := coord_list X in let d := variances diag (num_coords X) in
  let mu i := comp_mean (CT 0) (kerns i) kern xs d y in
  let va i := comp_var (CT 0) (kerns i) kern xs d in
  let name i := nth EmptyString (summand_names (g_kernel c)) i in
  forall i y', (i < size (summands k))%N ->
  exists d', gp_predict smolgp_ops c None y' false (Some (name i)) true
  = inr (existT prediction d' (PMeanVar (Vector (map (mu i) xs)) (Some (Vector (map (va i) xs))))).
Proof. exact (fun k X diag mean sa y kern kerns g lp c wf co np hn vd kept hk hks hs hg hc i y' hi => thm_predict_component wf co np hn vd kept hk hks hs hg hc y' hi). Qed.
Print Assumptions C32_predict_at_data.

Theorem C32_predict : forall k X diag mean sa y kern kerns g lp c, wf_kernel k -> const_obs k -> (forall k', List.In k' (summands k) -> ~ is_product k') ->
  names_free k \/ distinct (summand_names k) -> valid_data X diag y -> steps_kept k (times X) ->
  (forall X1 X2, kernel_evaluate false k X1 X2 = inr (kern X1 X2)) ->
  (forall i X1 X2, (i < size (summands k))%N ->
     kernel_evaluate false (nth (Constant 0 "") (summands k) i) X1 X2 = inr (kerns i X1 X2)) ->
  default_solver sa -> gaussian_process smolgp_ops k X diag mean sa = inr g ->
  gp_condition smolgp_ops g y None None = inr (lp, c) ->
  let xs := coord_list X in let d := variances diag (num_coords X) in
  let mu i := comp_mean (CT 0) (kerns i) kern xs d y in
  let va i := comp_var (CT 0) (kerns i) kern xs d in
  let name i := nth EmptyString (summand_names (g_kernel c)) i in
  forall Xt, (forall x, List.In x (coord_list Xt) -> predict_kept k (times X) (coord_to_sortable x)) ->
  let ts := coord_list Xt in
  forall i y', (i < size (summands k))%N ->
  exists d', gp_predict smolgp_ops c (Some Xt) y' false (Some (name i)) true
  = inr (existT prediction d' (PMeanVar (squeeze (map (mu i) ts)) (Some (squeeze (map (va i) ts))))).
Proof. exact (fun k X diag mean sa y kern kerns g lp c wf co np hn vd kept hk hks hs hg hc Xt hp i y' hi => thm_predict_component_test wf co np hn vd kept hk hks hs hg hc hp y' hi). Qed.
Print Assumptions C32_predict.

Theorem C32_predicted_states : forall k X diag mean sa y kern kerns g lp c, wf_kernel k -> const_obs k -> (forall k', List.In k' (summands k) -> ~ is_product k') ->
  names_free k \/ distinct (summand_names k) -> valid_data X diag y -> steps_kept k (times X) ->
  (forall X1 X2, kernel_evaluate false k X1 X2 = inr (kern X1 X2)) ->
  (forall i X1 X2, (i < size (summands k))%N ->
     kernel_evaluate false (nth (Constant 0 "") (summands k) i) X1 X2 = inr (kerns i X1 X2)) ->
  default_solver sa -> gaussian_process smolgp_ops k X diag mean sa = inr g ->
  gp_condition smolgp_ops g y None None = inr (lp, c) ->
  let xs := coord_list X in let d := variances diag (num_coords X) in
  let mu i := comp_mean (CT 0) (kerns i) kern xs d y in
  let va i := comp_var (CT 0) (kerns i) kern xs d in
  let name i := nth EmptyString (summand_names (g_kernel c)) i in
  forall Xt, (forall x, List.In x (coord_list Xt) -> predict_kept k (times X) (coord_to_sortable x)) ->
  let ts := coord_list Xt in
  forall y', exists d' (p : pstates d'),
  gp_predict smolgp_ops c (Some Xt) y' true None true = inr (existT prediction d' (PFull p)) /\
  ps_X p = Xt /\
  (forall i, (i < size (summands k))%N ->
     ps_get_component p [:: name i] = inr (squeeze (map (mu i) ts), squeeze (map (va i) ts))) /\
  ps_get_all_components p
  = [seq (name i, (squeeze (map (mu i) ts), squeeze (map (va i) ts))) | i <- iota 0 (size (summands k))].
Proof. exact (fun k X diag mean sa y kern kerns g lp c wf co np hn vd kept hk hks hs hg hc Xt hp y' => thm_predicted_states wf co np hn vd kept hk hks hs hg hc hp y'). Qed.
Print Assumptions C32_predicted_states.

(** The total mean is the sum of the component means, at the data and anywhere. *)

Theorem C32_add_at_data : forall k X diag mean sa y kern kerns g lp c, wf_kernel k -> const_obs k -> (forall k', List.In k' (summands k) -> ~ is_product k') ->
  names_free k \/ distinct (summand_names k) -> valid_data X diag y -> steps_kept k (times X) ->
  (forall X1 X2, kernel_evaluate false k X1 X2 = inr (kern X1 X2)) ->
  (forall i X1 X2, (i < size (summands k))%N ->
     kernel_evaluate false (nth (Constant 0 "") (summands k) i) X1 X2 = inr (kerns i X1 X2)) ->
  default_solver sa -> gaussian_process smolgp_ops k X diag mean sa = inr g ->
  gp_condition smolgp_ops g y None None = inr (lp, c) ->
  let xs := coord_list X in let d := variances diag (num_coords X) in
  let mu i := comp_mean (CT 0) (kerns i) kern xs d y in
  let va i := comp_var (CT 0) (kerns i) kern xs d in
  let name i := nth EmptyString (summand_names (g_kernel c)) i in
  forall j, (j < num_coords X)%N ->
  nth 0 (g_mean c) j = (\sum_(i < size (summands k)) nth 0%R (map (mu i) xs) j)%R.
Proof. exact (fun k X diag mean sa y kern kerns g lp c wf co np hn vd kept hk hks hs hg hc j hj => thm_add_at_data wf co vd kept hk hks hs hg hc hj). Qed.
Print Assumptions C32_add_at_data.

Theorem C32_add : forall k X diag mean sa y kern kerns g lp c, wf_kernel k -> const_obs k -> (forall k', List.In k' (summands k) -> ~ is_product k') ->
  names_free k \/ distinct (summand_names k) -> valid_data X diag y -> steps_kept k (times X) ->
  (forall X1 X2, kernel_evaluate false k X1 X2 = inr (kern X1 X2)) ->
  (forall i X1 X2, (i < size (summands k))%N ->
     kernel_evaluate false (nth (Constant 0 "") (summands k) i) X1 X2 = inr (kerns i X1 X2)) ->
  default_solver sa -> gaussian_process smolgp_ops k X diag mean sa = inr g ->
  gp_condition smolgp_ops g y None None = inr (lp, c) ->
  let xs := coord_list X in let d := variances diag (num_coords X) in
  let mu i := comp_mean (CT 0) (kerns i) kern xs d y in
  let va i := comp_var (CT 0) (kerns i) kern xs d in
  let name i := nth EmptyString (summand_names (g_kernel c)) i in
  forall x, gp_mean (CT 0) kern xs d y x = (\sum_(i < size (summands k)) mu i x)%R.
Proof. exact (fun k X diag mean sa y kern kerns g lp c wf co np hn vd kept hk hks hs hg hc x => thm_add X diag y hk hks x). Qed.
Print Assumptions C32_add.

(** Three summands, two of which have the same name, and four data. *)
Example C32_ex : wf_kernel k_aab /\ const_obs k_aab /\
  (forall k', List.In k' (summands k_aab) -> ~ is_product k') /\ names_free k_aab /\
  valid_data X_ex diag_ex y_ex /\ steps_kept k_aab (times X_ex) /\
  exists kern kerns g lp c,
  (forall X1 X2, kernel_evaluate false k_aab X1 X2 = inr (kern X1 X2)) /\
  (forall i X1 X2, (i < size (summands k_aab))%N ->
     kernel_evaluate false (nth (Constant 0 "") (summands k_aab) i) X1 X2 = inr (kerns i X1 X2)) /\
  gaussian_process smolgp_ops k_aab X_ex diag_ex None NoSolver = inr g /\
  gp_condition smolgp_ops g y_ex None None = inr (lp, c) /\
  summand_names (g_kernel c) = [:: "a_1"; "a_2"; "c"]%string.
Proof.
exact (conj k_aab_wf (conj k_aab_const (conj k_aab_np (conj k_aab_free (conj X_ex_valid
  (conj X_ex_aab comp_example)))))).
Qed.

(** With products as summands every component is 0 although the total is not. *)

Theorem C32_product_refuted : exists k X diag y kern g lp c,
  wf_kernel k /\ const_obs k /\ distinct (summand_names k) /\ valid_data X diag y /\
  steps_kept k (times X) /\
  (forall X1 X2, kernel_evaluate false k X1 X2 = inr (kern X1 X2)) /\
  gaussian_process smolgp_ops k X diag None NoSolver = inr g /\
  gp_condition smolgp_ops g y None None = inr (lp, c) /\
  g_kernel c = k /\
  (forall n, List.In n (summand_names k) ->
     gp_component_mean c [:: n] = inr (Vector [:: 0; 0], Vector [:: 0; 0])) /\
  g_mean c <> [:: 0; 0].
Proof. exact product_component_refuted. Qed.
Print Assumptions C32_product_refuted.
