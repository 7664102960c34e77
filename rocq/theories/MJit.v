(* Model of the interplay of jax.jit and the CHOLMOD analysis cache:
   jaxfg/solvers/_nonlinear_solver_base.py:75-104 (solve is decorated with jdc.jit),
   jaxfg/solvers/_fixed_iteration_gauss_newton_solver.py:91-122 (jax.jit),
   jaxfg/sparse/_linear_solve.py:59-88 (the callback is a bound method of a CholmodSolver).

   jax.jit compiles a function once per treedef and leaf shapes of its arguments.  Inside
   the traced function [self] and [self.linear_solver] are objects rebuilt from the treedef;
   hcb.call(self._solve, ...) therefore captures the CholmodSolver rebuilt during tracing, not
   the caller's.  Simplifications: dtypes are not part of the key; compiled functions are
   never evicted (so the captured objects live on and their addresses are not reused);
   tracing succeeds and the solver makes at least one iteration. *)
From Coq Require Import List Arith Bool ZArith.
From Verif Require Import Num Py Arr MLayout MAssign MNoise MSparse MFactor MGraph MMisc.
Import ListNotations.

(* treedef and leaf shapes of a FactorStack (_factor_stack.py:16-27): num_factors, the class,
   variables (canonical instances) and containers of the stacked factor, the layout; the
   shapes of its leaves and of value_indices *)
Record skey := mkSkey {
  sk_num : nat; sk_cls : nat; sk_types : list vty; sk_tree : treedef; sk_shapes : list (list nat);
  sk_idx : list (nat * nat); sk_layout : layout }.

(* arguments of solve: static part of the solver (class, verbose, ... and the classes of its
   fields), the graph (_stacked_factor_graph.py:20-31) and the initial assignments *)
Record jkey := mkJkey {
  jk_solver : nat; jk_stacks : list skey; jk_nnz : nat * nat; jk_layout : layout; jk_local : layout;
  jk_rdim : nat; jk_size : nat; jk_init : layout }.

Definition skey_eqb (a b : skey) : bool :=
  Nat.eqb (sk_num a) (sk_num b) && Nat.eqb (sk_cls a) (sk_cls b) && list_eqb Nat.eqb (sk_types a) (sk_types b)
  && treedef_eqb (sk_tree a) (sk_tree b) && list_eqb shape_eqb (sk_shapes a) (sk_shapes b)
  && list_eqb (fun x y => Nat.eqb (fst x) (fst y) && Nat.eqb (snd x) (snd y)) (sk_idx a) (sk_idx b)
  && layout_eqb (sk_layout a) (sk_layout b).
Definition jkey_eqb (a b : jkey) : bool :=
  Nat.eqb (jk_solver a) (jk_solver b) && list_eqb skey_eqb (jk_stacks a) (jk_stacks b)
  && (Nat.eqb (fst (jk_nnz a)) (fst (jk_nnz b)) && Nat.eqb (snd (jk_nnz a)) (snd (jk_nnz b)))
  && layout_eqb (jk_layout a) (jk_layout b) && layout_eqb (jk_local a) (jk_local b)
  && Nat.eqb (jk_rdim a) (jk_rdim b) && Nat.eqb (jk_size a) (jk_size b) && layout_eqb (jk_init a) (jk_init b).

Section Model.
Context {T : Type} {N : Num T}.

Definition stack_key (s : fstack T) : skey :=
  let f := fs_factor s in
  mkSkey (fs_num s) (fd_cls f) (fd_types f)
         (TNode 0 (noise_structure (fd_noise f) :: map structure (fd_params f)))
         (map a_shape (noise_leaves (fd_noise f) ++ flat_map leaves (fd_params f)))
         (map (fun rows => (length rows, length (hd [] rows))) (fs_idx s))
         (fs_layout s).

(* solver.solve(graph, initial_assignments), the solver being the object [cl_object] *)
Record call := mkCall { cl_object : nat; cl_solver : nat; cl_graph : graph T; cl_init : assign T }.

Definition call_key (c : call) : jkey :=
  let g := cl_graph c in
  mkJkey (cl_solver c) (map stack_key (g_stacks g))
         (length (c_rows (g_coords g)), length (c_cols (g_coords g)))
         (g_layout g) (g_local_layout g) (g_residual_dim g)
         (length (as_storage (cl_init c))) (as_layout (cl_init c)).

(* what args.A.T.as_scipy_coo_matrix() stores (_linear_solve.py:74-75); the coordinates are
   those of the graph in every iteration *)
Definition call_pattern (c : call) : pattern :=
  let g := cl_graph c in
  (l_dim (g_local_layout g), g_residual_dim g, combine (c_cols (g_coords g)) (c_rows (g_coords g))).

(* the compiled functions with the address of the CholmodSolver each of them captured, and
   _cholmod_analyze_cache *)
Record jstate := mkJstate { j_traces : list (jkey * addr); j_cache : dict addr pattern }.

Definition jit_call (c : call) (s : jstate) : option pattern * jstate :=
  let '(a, traces) :=
    match find (fun ka => jkey_eqb (fst ka) (call_key c)) (j_traces s) with
    | Some ka => (snd ka, j_traces s)
    | None => (length (j_traces s), j_traces s ++ [(call_key c, length (j_traces s))])
    end in
  let '(p, cache) := cstep (CSolve a (call_pattern c)) (j_cache s) in
  (p, mkJstate traces cache).

Fixpoint jit_run (cs : list call) (s : jstate) : list (option pattern) * jstate :=
  match cs with
  | [] => ([], s)
  | c :: r => let '(p, s') := jit_call c s in
              let '(ps, s'') := jit_run r s' in (p :: ps, s'')
  end.
Definition jit0 : jstate := mkJstate [] [].
End Model.
Arguments call : clear implicits.
