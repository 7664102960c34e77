(* Specification vocabulary: which calls of solve share a compiled function. *)
From Coq Require Import List Arith.
From Verif Require Import Num Py Arr MLayout MAssign MNoise MSparse MFactor MGraph MMisc MJit SpecLayout SpecTree SpecAssign SpecGraph.
Import ListNotations.

Section Spec.
Context {T : Type} {N : Num T}.

(* same static data and same array shapes; the contents of the arrays may differ *)
Definition stacks_alike (s s' : fstack T) : Prop :=
  fs_num s = fs_num s' /\ fd_cls (fs_factor s) = fd_cls (fs_factor s') /\ fd_types (fs_factor s) = fd_types (fs_factor s') /\
  noise_structure (fd_noise (fs_factor s)) = noise_structure (fd_noise (fs_factor s')) /\
  map structure (fd_params (fs_factor s)) = map structure (fd_params (fs_factor s')) /\
  map a_shape (noise_leaves (fd_noise (fs_factor s)) ++ flat_map leaves (fd_params (fs_factor s))) =
    map a_shape (noise_leaves (fd_noise (fs_factor s')) ++ flat_map leaves (fd_params (fs_factor s'))) /\
  map (fun rows => (length rows, length (hd [] rows))) (fs_idx s) = map (fun rows => (length rows, length (hd [] rows))) (fs_idx s') /\
  same_layout (fs_layout s) (fs_layout s').
Definition graphs_alike (g g' : graph T) : Prop :=
  Forall2 stacks_alike (g_stacks g) (g_stacks g') /\
  length (c_rows (g_coords g)) = length (c_rows (g_coords g')) /\ length (c_cols (g_coords g)) = length (c_cols (g_coords g')) /\
  same_layout (g_layout g) (g_layout g') /\ same_layout (g_local_layout g) (g_local_layout g') /\
  g_residual_dim g = g_residual_dim g'.
Definition calls_alike (c c' : call T) : Prop :=
  cl_solver c = cl_solver c' /\ graphs_alike (cl_graph c) (cl_graph c') /\
  length (as_storage (cl_init c)) = length (as_storage (cl_init c')) /\ same_layout (as_layout (cl_init c)) (as_layout (cl_init c')).

(* a call on a graph made from well-shaped factors and a well-formed assignment *)
Definition call_ok (E : env T) (c : call T) : Prop :=
  exists fs vs, (forall f, In f fs -> factor_ok f) /\ graph_make E fs = Ok (cl_graph c) /\ wf_assign (e_cls E) vs false (cl_init c).

(* the same call made with another solver object *)
Definition with_object (o : nat) (c : call T) : call T := mkCall o (cl_solver c) (cl_graph c) (cl_init c).
End Spec.
