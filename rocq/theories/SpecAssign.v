(* Specification vocabulary for assignments. *)
From Coq Require Import List Arith Bool.
From Verif Require Import Num Py Arr MLayout SpecLayout SpecTree MAssign PBase.
Import ListNotations.

Section Spec.
Context {T : Type}.
Variable C : cenv (T := T).

(* an assignment over the distinct variables vs, as the API builds them: its layout is the
   one StorageLayout.make gives for vs and its storage has the layout's length *)
Definition wf_assign (vs : list var) (local : bool) (a : assign T) : Prop :=
  NoDup vs /\ as_layout a = make_layout C vs local /\ length (as_storage a) = l_dim (as_layout a).

(* the entries of a storage vector that belong to v *)
Definition block (L : layout) (st : list T) (v : var) : list T :=
  match dict_get (l_index L) v with
  | Some i => slice st i (i + vdim C (l_local L) v)
  | None => []
  end.

(* what a partial dict says about v *)
Definition lookup_or_default (d : dict var (pytree T)) (v : var) : pytree T :=
  match dict_get d v with Some x => x | None => vc_default (C (v_ty v)) end.

(* some variable with at least one parameter is listed at least twice *)
Definition repeated (vs : list var) : Prop := exists v, 2 <= count_occ eqb_dec vs v /\ 0 < vpdim C v.
End Spec.

(* a class that overrides neither get_local_parameter_dim nor manifold_retract *)
Definition plain_class {T} (c : vclass T) : Prop := vc_local c = None /\ vc_retract c = None.
(* the number of scalars in a value with the shapes of x *)
Definition scalars {T} (x : pytree T) : nat := list_sum (map (fun a => fold_right Nat.mul 1 (a_shape a)) (leaves x)).

(* layouts that are == in Python: same flag, same dim, dictionaries with equal content *)
Definition same_layout (L1 L2 : layout) : Prop :=
  l_local L1 = l_local L2 /\ l_dim L1 = l_dim L2 /\
  (forall v, dict_get (l_index L1) v = dict_get (l_index L2) v) /\
  (forall t, dict_get (l_tindex L1) t = dict_get (l_tindex L2) t) /\
  (forall t, dict_get (l_tcount L1) t = dict_get (l_tcount L2) t).
