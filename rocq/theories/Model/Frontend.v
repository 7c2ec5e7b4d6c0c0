(** src/smolgp/gp.py: the GaussianProcess front end.

    Everything here is generic in the solver: [solver_ops] collects what gp.py
    calls on a solver object (Kalman, condition, predict); Model/Gp.v plugs in the
    four solver classes. *)
From Coq Require Import Reals String Ascii.
From mathcomp Require Import all_ssreflect all_algebra.
From Verif.Prelude Require Import Rstruct.
From Verif.Model Require Import Array BaseKernels Kernel Integrated.
Set Implicit Arguments.
Unset Strict Implicit.
Unset Printing Implicit Defensive.
Import GRing.Theory.

(** Exceptions propagate. *)
Definition ebind {A B : Type} (x : err + A) (f : A -> err + B) : err + B :=
  match x with inl e => inl e | inr a => f a end.
Notation "x <-- a ;; b" := (ebind a (fun x => b)) (at level 61, a at next level, right associativity).

(** 0-d and 1-d arrays, and numpy's squeeze of an (N, 1) or (N, 1, 1) array: the
    result is 0-d when N = 1. *)
Inductive farray := Scalar of R | Vector of seq R.
Definition squeeze (s : seq R) : farray := if s is [:: x] then Scalar x else Vector s.

(** Results that may be -inf (gp.py:762). *)
Inductive xreal := Fin of R | NegInf.

(** The coordinates X of N data: an array, or a tuple (t, delta) or
    (t, delta, instid) of arrays.  [coord_list] is what jax.vmap(f)(X) maps over;
    an element (t, delta) of a pair is written CX t delta 0. *)
Inductive coords := CArray of seq R | CPair of seq R & seq R
                  | CTriple of seq R & seq R & seq nat.
Definition coord_list (X : coords) : seq coord :=
  match X with
  | CArray t => map CT t
  | CPair t d => mkseq (fun i => CX (nth 0%R t i) (nth 0%R d i) 0) (size t)
  | CTriple t d s => mkseq (fun i => CX (nth 0%R t i) (nth 0%R d i) (nth 0%N s i)) (size t)
  end.
(** coord_to_sortable of the coordinates (base.py:76-85), and jnp.array(X).shape[-1]. *)
Definition times (X : coords) : seq R :=
  match X with CArray t | CPair t _ | CTriple t _ _ => t end.
Definition num_coords (X : coords) : nat := size (times X).
Definition is_tuple (X : coords) : bool := if X is CArray _ then false else true.

(** Python dictionaries with string keys. *)
Section Dict.
Variable A : Type.
Definition dict := seq (string * A).
Fixpoint dget (d : dict) (key : string) : option A :=
  match d with
  | [::] => None
  | (k, v) :: d' => if String.eqb k key then Some v else dget d' key
  end.
Fixpoint dset (d : dict) (key : string) (a : A) : dict :=
  match d with
  | [::] => [:: (key, a)]
  | (k, v) :: d' => if String.eqb k key then (key, a) :: d' else (k, v) :: dset d' key a
  end.
End Dict.

(** ** assign_unique_kernel_names, gp.py:34-71 *)

(** dataclasses.replace(k, name=newname), gp.py:65: calls the constructor with the
    new name; PeriodicTerm and Matern ignore it (base.py:1201, 1311).  Applied to
    leaves only. *)
Definition set_name (s : string) (k : kernel) : kernel :=
  match k with
  | Constant a _ => Constant a s
  | SHO a b c _ => SHO a b c s
  | Exp a b _ => Exp a b s
  | Matern32 a b _ => Matern32 a b s
  | Matern52 a b _ => Matern52 a b s
  | Cosine a b _ => Cosine a b s
  | ExpSineSquared a b c o _ => ExpSineSquared a b c o s
  | Custom m _ => Custom m s
  | Scale a k _ => Scale a k s
  | IntegratedSHO a b c n _ => IntegratedSHO a b c n s
  | IntegratedExp a b n _ => IntegratedExp a b n s
  | IntegratedMatern32 a b n _ => IntegratedMatern32 a b n s
  | IntegratedMatern52 a b n _ => IntegratedMatern52 a b n s
  | IntegratedCosine a b n _ => IntegratedCosine a b n s
  | PeriodicTerm _ _ _ | Matern _ _ _ | Sum _ _ | Product _ _ => k
  end.

(** counts (gp.py:46-48) and used (gp.py:50). *)
Definition name_counts (names : seq string) : dict nat :=
  foldl (fun d n => dset d n (odflt 0%N (dget d n)).+1) [::] names.
Definition name_used (counts : dict nat) : dict nat :=
  [seq (nc.1, 1%N) | nc <- counts & (1 < nc.2)%N].

(** _rename (gp.py:52-69), threading the mutable dictionary [used]. *)
Fixpoint rename (counts : dict nat) (k : kernel) (used : dict nat) : err + (kernel * dict nat) :=
  match k with
  | Sum k1 k2 =>
      r1 <-- rename counts k1 used ;;
      r2 <-- rename counts k2 r1.2 ;;
      inr (Sum r1.1 r2.1, r2.2)
  | Product k1 k2 =>
      r1 <-- rename counts k1 used ;;
      r2 <-- rename counts k2 r1.2 ;;
      inr (Product r1.1 r2.1, r2.2)
  | _ =>
      match dget counts (kname k) with
      | None => inl KeyError
      | Some c =>
          if (1 < c)%N then
            match dget used (kname k) with
            | None => inl KeyError
            | Some idx =>
                inr (set_name (String.append (kname k) (String.append "_" (nat_string idx))) k,
                     dset used (kname k) idx.+1)
            end
          else inr (k, used)
      end
  end.

Definition string_uniq (s : seq string) : bool :=
  (fix u (s : seq string) : bool :=
     if s is x :: s' then ~~ has (String.eqb x) s' && u s' else true) s.

Definition assign_unique_kernel_names (k : kernel) : err + kernel :=
  let names := map kname (extract_leaf_kernels false k) in
  if string_uniq names then inr k
  else let counts := name_counts names in
       r <-- rename counts k (name_used counts) ;; inr r.1.

(** ** What gp.py uses of a solver *)

(** The state coordinates returned by solver.condition: an array of times
    (solvers/solver.py:78) or a tuple (t_states, instid, obsid, stateid). *)
Inductive state_coords := SCtimes of seq R | SCtuple of seq R & seq nat & seq nat & seq nat.

(** (state_coords, ((m_pred, P_pred), (m_filt, P_filt), (m_smooth, P_smooth)), v_S) *)
Record results (d : nat) := Results {
  r_coords : state_coords;
  r_mp : seq 'cV[R]_d; r_Pp : seq 'M[R]_d;
  r_mf : seq 'cV[R]_d; r_Pf : seq 'M[R]_d;
  r_ms : seq 'cV[R]_d; r_Ps : seq 'M[R]_d;
  r_vS : option (seq 'M[R]_1 * seq 'M[R]_1)
}.

(** Output of solver.Kalman: (m_filt, P_filt, m_pred, P_pred[, v, S]). *)
Record kalman_results (d : nat) := KalmanResults {
  kr_mf : seq 'cV[R]_d; kr_Pf : seq 'M[R]_d;
  kr_mp : seq 'cV[R]_d; kr_Pp : seq 'M[R]_d;
  kr_vS : option (seq 'M[R]_1 * seq 'M[R]_1)
}.

Inductive solver_kind := StateSpaceSolver | ParallelStateSpaceSolver
  | IntegratedStateSpaceSolver | ParallelIntegratedStateSpaceSolver.

Definition is_integrated_kind (s : solver_kind) : bool :=
  match s with
  | IntegratedStateSpaceSolver | ParallelIntegratedStateSpaceSolver => true
  | _ => false
  end.

(** A solver object: the arguments of its constructor. *)
Record solver := Solver {
  sv_kind : solver_kind; sv_kernel : kernel; sv_X : coords; sv_noise : seq R }.
Definition sdim_of (s : solver) : nat := md (denote (sv_kernel s)).

(** The methods. [so_init] is the exception raised by the constructor, if any. *)
Record solver_ops := SolverOps {
  so_init : kernel -> coords -> option err;
  so_kalman : forall s : solver, seq R -> bool -> err + kalman_results (sdim_of s);
  so_condition : forall s : solver, seq R -> bool -> err + results (sdim_of s);
  so_predict : forall s : solver, coords -> results (sdim_of s) ->
                 err + seq ('cV[R]_(sdim_of s) * 'M[R]_(sdim_of s))
}.

(** ConditionedStates, gp.py:74-127 (its field X is kept with the GP). *)
Record cstates (d : nat) := CStates {
  cs_X : coords;
  cs_t : seq R; cs_instid : seq nat; cs_obsid : seq nat; cs_stateid : seq nat;
  cs_mp : seq 'cV[R]_d; cs_Pp : seq 'M[R]_d;
  cs_mf : seq 'cV[R]_d; cs_Pf : seq 'M[R]_d;
  cs_ms : seq 'cV[R]_d; cs_Ps : seq 'M[R]_d
}.

(** ConditionedStates.__call__, gp.py:121-129 *)
Definition cs_call d (c : cstates d) : results d :=
  {| r_coords := SCtuple (cs_t c) (cs_instid c) (cs_obsid c) (cs_stateid c);
     r_mp := cs_mp c; r_Pp := cs_Pp c; r_mf := cs_mf c; r_Pf := cs_Pf c;
     r_ms := cs_ms c; r_Ps := cs_Ps c; r_vS := None |}.

(** H @ m and H @ P @ H.T *)
Definition proj_mean d (H : 'M[R]_(1, d)) (m : 'cV[R]_d) : R := ((H *m m) 0 0)%R.
Definition proj_var d (H : 'M[R]_(1, d)) (P : 'M[R]_d) : R := ((H *m P *m H^T) 0 0)%R.

(** jnp.argsort (stable). *)
Definition argsort (s : seq nat) : seq nat :=
  sort (fun i j => nth 0%N s i <= nth 0%N s j)%N (iota 0 (size s)).

(** The indices selected by project_at_data, gp.py:147-150. *)
Definition data_index d (c : cstates d) : seq nat :=
  let ends_idx := nonzero_ones (cs_stateid c) (num_coords (cs_X c)) in
  let srt := argsort [seq nth 0%N (cs_obsid c) i | i <- ends_idx] in
  [seq nth 0%N ends_idx i | i <- srt].

(** ConditionedStates.project_at_data, gp.py:131-156. *)
Definition project_at_data d (c : cstates d) (H : coord -> 'M[R]_(1, d)) : farray * farray :=
  let idx := data_index c in
  let X := coord_list (cs_X c) in
  let m_sel := [seq nth 0%R (cs_ms c) i | i <- idx] in
  let P_sel := [seq nth 0%R (cs_Ps c) i | i <- idx] in
  let N := num_coords (cs_X c) in
  (squeeze (mkseq (fun i => proj_mean (H (nth (CT 0%R) X i)) (nth 0%R m_sel i)) N),
   squeeze (mkseq (fun i => proj_var (H (nth (CT 0%R) X i)) (nth 0%R P_sel i)) N)).

(** kernel.observation_model(X, component) applied to states of dimension d.  The
    kernel of the GP and the kernel of its solver differ in names only, so their
    dimensions are equal (Proofs/Names.v); the other branch would be a shape error. *)
Definition obs_row (d : nat) (k : kernel) (component : option string) (X : coord) :
    'M[R]_(1, d) :=
  match md (denote k) =P d with
  | ReflectT e => castmx (erefl, e) (observation_model k X component)
  | ReflectF _ => 0%R
  end.
(** kernel.observation_matrix(X) likewise. *)
Definition obs_matrix_row (d : nat) (k : kernel) (X : coord) : 'M[R]_(1, d) :=
  match md (denote k) =P d with
  | ReflectT e => castmx (erefl, e) (mH (denote k) X)
  | ReflectF _ => 0%R
  end.
(** The joint observation model of several components (gp.py:233-238, 795-800). *)
Definition obs_rows (d : nat) (k : kernel) (c0 : string) (cs : seq string) (X : coord) :
    'M[R]_(1, d) :=
  foldl (fun H c => H + obs_row d k (Some c) X)%R (obs_row d k (Some c0) X) cs.

(** ** PredictedStates, gp.py:159-267 *)
Record pstates (d : nat) := PStates {
  ps_X : coords; ps_mean : seq 'cV[R]_d; ps_cov : seq 'M[R]_d; ps_kernel : kernel }.
Definition project_mean d (p : pstates d) (H : coord -> 'M[R]_(1, d)) : farray :=
  let X := coord_list (ps_X p) in
  squeeze (mkseq (fun i => proj_mean (H (nth (CT 0%R) X i)) (nth 0%R (ps_mean p) i)) (size X)).
Definition project_variance d (p : pstates d) (H : coord -> 'M[R]_(1, d)) : farray :=
  let X := coord_list (ps_X p) in
  squeeze (mkseq (fun i => proj_var (H (nth (CT 0%R) X i)) (nth 0%R (ps_cov p) i)) (size X)).
Definition ps_loc d (p : pstates d) : farray := project_mean p (obs_matrix_row d (ps_kernel p)).
Definition ps_variance d (p : pstates d) : farray :=
  project_variance p (obs_matrix_row d (ps_kernel p)).
(** get_component, gp.py:221-248; an empty list of names raises. *)
Definition ps_get_component d (p : pstates d) (component : seq string) : err + (farray * farray) :=
  match component with
  | [::] => inl IndexError
  | c0 :: cs => let H := obs_rows d (ps_kernel p) c0 cs in
                inr (project_mean p H, project_variance p H)
  end.
(** get_all_components, gp.py:250-267 *)
Definition ps_get_all_components d (p : pstates d) : dict (farray * farray) :=
  foldl (fun r k => let H := obs_rows d (ps_kernel p) (kname k) [::] in
                    dset r (kname k) (project_mean p H, project_variance p H))
        [::] (extract_leaf_kernels false (ps_kernel p)).

(** ** GaussianProcess *)

(** _compute_log_prob, gp.py:737-762, for v of shape (N, 1) and S of shape
    (N, 1, 1): the Cholesky factor of a 1x1 matrix S is sqrt(S), and nan (hence a
    result that is not finite) unless S > 0. *)
Definition compute_log_prob (v S : seq 'M[R]_1) : xreal :=
  if all (fun s : 'M[R]_1 => Rltb 0 (s 0%R 0%R)) S then
    let term k := let L := sqrt ((nth 0%R S k : 'M[R]_1) 0%R 0%R) in
                  let w := Rdiv ((nth 0%R v k : 'M[R]_1) 0%R 0%R) L in
                  Rplus (Rplus (sq w) (Rmult 2 (ln L))) (Rmult 1 (ln (Rmult 2 PI))) in
    Fin (Rmult (Ropp (Rdiv 1 2)) (\sum_(0 <= k < size v) term k)%R)
  else NegInf.

(** _default_diag, gp.py:879-884, with double precision. *)
Definition default_diag : R := sqrt (/ 2 ^ 52).

(** The argument diag: a number or an array; [broadcast] is jnp.broadcast_to. *)
Definition broadcast (d : farray) (N : nat) : err + seq R :=
  match d with
  | Scalar x => inr (nseq N x)
  | Vector v => if size v == N then inr v
                else if v is [:: x] then inr (nseq N x) else inl ValueError
  end.

(** The argument solver: None, a class, or an instance. *)
Inductive solver_arg := NoSolver | SolverClass of solver_kind | SolverInstance of solver.

(** self.states, for a solver s. *)
Definition states_of (s : solver) := option (cstates (sdim_of s)).

Record gp := Gp {
  g_kernel : kernel;
  g_X : coords;
  g_mean_function : coord -> R;
  g_mean : seq R;
  g_var : option farray;
  g_noise : seq R;
  g_solver : solver;
  g_states : states_of g_solver
}.

Section GaussianProcess.
Variable ops : solver_kind -> solver_ops.

(** GaussianProcess.__init__, gp.py:306-404, up to the choice of solver.
    Simplifications: [noise] is an object known by its diagonal; the mean function
    is scalar valued; solver keyword arguments are not modelled. *)
Definition choose_solver (a : solver_arg) (is_integrated : bool) (k : kernel) (X : coords)
    (noise : seq R) : err + solver :=
  let make kind := match so_init (ops kind) k X with
                   | Some e => inl e
                   | None => inr (Solver kind k X noise)
                   end in
  match a with
  | NoSolver => make (if is_integrated then IntegratedStateSpaceSolver else StateSpaceSolver)
  | SolverClass kind => make kind
  | SolverInstance s => inr s
  end.

Definition gp_integrated (k : kernel) : bool :=
  has is_integrated_leaf (extract_leaf_kernels false k).

Definition gp_init (k : kernel) (X : coords) (diag : option farray) (noise : option (seq R))
    (mean : option (coord -> R)) (sa : solver_arg) (mean_value : option farray)
    (variance_value : option farray) (use_unique_names : bool)
    (states : forall s : solver, states_of s) : err + gp :=
  k' <-- (if use_unique_names then assign_unique_kernel_names k else inr k) ;;
  let is_integrated := gp_integrated k' in
  if is_integrated && ~~ is_tuple X then inl AssertionError
  else
    let mean_function := if mean is Some f then f else (fun _ => 0%R) in
    let mv := if mean_value is Some v then v else Vector (map mean_function (coord_list X)) in
    match mv with
    | Scalar _ => inl IndexError
    | Vector m =>
        nd <-- match noise with
              | Some nd => inr nd
              | None => broadcast (odflt (Scalar default_diag) diag) (size m)
              end ;;
        s <-- choose_solver sa is_integrated k X nd ;;
        inr (@Gp k' X mean_function m variance_value nd s (states s))
    end.

(** GaussianProcess(kernel, X, diag=.., mean=.., solver=..) as a user calls it. *)
Definition no_states (s : solver) : states_of s := None.
Definition gaussian_process (k : kernel) (X : coords) (diag : option farray)
    (mean : option (coord -> R)) (sa : solver_arg) : err + gp :=
  gp_init k X diag None mean sa None None true no_states.

(** log_probability, gp.py:430-443: the result of Kalman is unpacked into 6. *)
Definition gp_log_probability (g : gp) (y : seq R) : err + xreal :=
  r <-- so_kalman (ops (sv_kind (g_solver g))) (g_solver g) y true ;;
  match kr_vS r with
  | Some (v, S_) => inr (compute_log_prob v S_)
  | None => inl ValueError
  end.

(** covariance, gp.py:422-428, and sample, gp.py:692-735, raise NotImplementedError. *)
Definition gp_covariance (g : gp) : err + R := inl NotImplemented.
Definition gp_sample (g : gp) : err + seq R := inl NotImplemented.

(** The id arrays of the conditioned states, gp.py:514-525. *)
Definition state_arrays (kind : solver_kind) (sc : state_coords) :
    err + (seq R * seq nat * seq nat * seq nat) :=
  if is_integrated_kind kind then
    match sc with
    | SCtuple t i o s => inr (t, i, o, s)
    | SCtimes _ => inl ValueError
    end
  else let t := match sc with SCtimes t => t | SCtuple t _ _ _ => t end in
       inr (t, nseq (size t) 0%N, iota 0 (size t), nseq (size t) 1%N).

(** Same pytree structure (gp.py:489-501). *)
Definition same_structure (X Y : coords) : bool :=
  match X, Y with
  | CArray _, CArray _ | CPair _ _, CPair _ _ | CTriple _ _ _, CTriple _ _ _ => true
  | _, _ => false
  end.

(** An option of states for one particular solver, None for any other. *)
Definition only_for (s : solver) (c : cstates (sdim_of s)) (s' : solver) : states_of s' :=
  match sdim_of s =P sdim_of s' with
  | ReflectT e => Some (ecast d (cstates d) e c)
  | ReflectF _ => None
  end.

(** condition, gp.py:445-576.  [kernel] is the name of the component to project
    on; the arguments diag, noise and include_mean are never used by the code. *)
Definition gp_condition (g : gp) (y : seq R) (X_test : option coords)
    (kernel : option string) : err + (xreal * gp) :=
  if (if X_test is Some Xt then ~~ same_structure (g_X g) Xt else false) then inl ValueError
  else
    let s := g_solver g in
    let d := sdim_of s in
    res <-- so_condition (ops (sv_kind s)) s y true ;;
    match r_vS res with
    | None => inl TypeError
    | Some (v, S_) =>
        arr <-- state_arrays (sv_kind s) (r_coords res) ;;
        let: (t_states, instid, obsid, stateid) := arr in
        let states := {| cs_X := g_X g; cs_t := t_states; cs_instid := instid;
                         cs_obsid := obsid; cs_stateid := stateid;
                         cs_mp := r_mp res; cs_Pp := r_Pp res; cs_mf := r_mf res;
                         cs_Pf := r_Pf res; cs_ms := r_ms res; cs_Ps := r_Ps res |} in
        let log_prob := compute_log_prob v S_ in
        match X_test with
        | Some Xt =>
            (* mu has shape (M, d): the constructor of condGP rejects it *)
            mv <-- @so_predict (ops (sv_kind s)) s Xt res ;;
            inl ValueError
        | None =>
            let mv := project_at_data states (obs_row d (g_kernel g) kernel) in
            c <-- gp_init (g_kernel g) (g_X g) None (Some (g_noise g)) None (SolverInstance s)
                   (Some mv.1) (Some mv.2) true (only_for states) ;;
            inr (log_prob, c)
        end
    end.

(** What predict returns. *)
Inductive prediction (d : nat) :=
| PMean of farray
| PMeanVar of farray & option farray
| PStateMean of seq 'cV[R]_d
| PStateMeanCov of seq 'cV[R]_d & seq 'M[R]_d
| PFull of pstates d.

Definition predict_type (g : gp) : Type := prediction (sdim_of (g_solver g)).

(** predict on a conditioned GP, gp.py:639-689. *)
Definition gp_predict_conditioned (g : gp) (c : cstates (sdim_of (g_solver g)))
    (X_test : option coords) (return_full_state : bool) (kernel : option string)
    (return_var : bool)
    (observation_model : option (coord -> 'M[R]_(1, sdim_of (g_solver g)))) :
    err + prediction (sdim_of (g_solver g)) :=
  let s := g_solver g in
  let d := sdim_of s in
  match X_test with
  | None =>
      if return_full_state then
        inr (if return_var then PStateMeanCov (cs_ms c) (cs_Ps c) else PStateMean (cs_ms c))
      else
        match kernel with
        | None => inr (if return_var then PMeanVar d (Vector (g_mean g)) (g_var g)
                       else PMean d (Vector (g_mean g)))
        | Some name =>
            let mv := project_at_data c (obs_row d (g_kernel g) (Some name)) in
            inr (if return_var then PMeanVar d mv.1 (Some mv.2) else PMean d mv.1)
        end
  | Some Xt =>
      mv <-- @so_predict (ops (sv_kind s)) s Xt (cs_call c) ;;
      let means := unzip1 mv in
      let covs := unzip2 mv in
      if return_full_state then inr (PFull (PStates Xt means covs (g_kernel g)))
      else
        let H := match kernel with
                 | Some name => obs_row d (g_kernel g) (Some name)
                 | None => match observation_model with
                           | Some f => f
                           | None => obs_row d (g_kernel g) None
                           end
                 end in
        let X := coord_list Xt in
        let mu := squeeze (mkseq (fun i => proj_mean (H (nth (CT 0%R) X i)) (nth 0%R means i)) (size X)) in
        let var := squeeze (mkseq (fun i => proj_var (H (nth (CT 0%R) X i)) (nth 0%R covs i)) (size X)) in
        inr (if return_var then PMeanVar d mu (Some var) else PMean d mu)
  end.

(** predict, gp.py:578-689.  The result is tagged with the dimension it has. *)
Definition some_prediction := {d : nat & prediction d}.
Definition gp_predict (g : gp) (X_test : option coords) (y : option (seq R))
    (return_full_state : bool) (kernel : option string) (return_var : bool) :
    err + some_prediction :=
  let finish g' c :=
    p <-- @gp_predict_conditioned g' c X_test return_full_state kernel return_var None ;;
    inr (existT prediction _ p) in
  match g_states g with
  | Some c => finish g c
  | None =>
      match y with
      | None => inl AssertionError
      | Some y =>
          r <-- gp_condition g y None None ;;
          match g_states r.2 with
          | Some c => finish r.2 c
          | None => inl AssertionError
          end
      end
  end.

(** get_component_mean, gp.py:764-814, and get_all_component_means, 816-852. *)
Definition gp_component_mean (g : gp) (component : seq string) : err + (farray * farray) :=
  match g_states g with
  | None => inl ValueError
  | Some c =>
      match component with
      | [::] => inl IndexError
      | c0 :: cs => inr (project_at_data c (obs_rows _ (g_kernel g) c0 cs))
      end
  end.
Definition gp_all_component_means (g : gp) : err + dict (farray * farray) :=
  match g_states g with
  | None => inl ValueError
  | Some c =>
      inr (foldl (fun r k => dset r (kname k)
                    (project_at_data c (obs_rows _ (g_kernel g) (kname k) [::])))
             [::] (extract_leaf_kernels false (g_kernel g)))
  end.

End GaussianProcess.

(** PredictedStates.loc and so on are reached through predict(return_full_state=True). *)
Arguments PMean {d}. Arguments PMeanVar {d}.
