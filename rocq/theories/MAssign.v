(* Model of jaxfg/core/_variable_assignments.py *)
From Coq Require Import List Arith Bool.
From Verif Require Import Num Py Arr MLayout.
Import ListNotations.

Section Model.
Context {T : Type} {N : Num T}.
Variable C : cenv (T := T).

(* jaxfg/core/_variable_assignments.py:15-24 *)
Record assign := mkAssign { as_storage : list T; as_layout : layout }.

(* :26-46 make_from_defaults.  jnp.tile(flat, reps=(count,)) repeats the vector; the
   counts are looked up per type. *)
Definition make_from_defaults (vs : list var) : result assign :=
  let L := make_layout C vs false in
  parts <- traverse (fun t =>
             n <- dict_getE (l_tcount L) t ;;
             Ok (concat (repeat (flatten (vc_default (C t))) n)))
           (get_variable_types L) ;;
  st <- concatenate parts ;;
  _ <- assert_ (Nat.eqb (length st) (l_dim L)) ;;
  Ok (mkAssign st L).

(* :58-83 make_from_partial_dict *)
Definition make_from_partial_dict (vs : list var) (d : dict var (pytree T)) : result assign :=
  let L := make_layout C vs false in
  let parts := map (fun v =>
                 flatten (match dict_get d v with
                          | Some x => x
                          | None => vc_default (C (v_ty v))
                          end)) (get_variables L) in
  st <- concatenate parts ;;
  _ <- assert_ (Nat.eqb (length st) (l_dim L)) ;;
  Ok (mkAssign st L).

(* :48-56 make_from_dict *)
Definition make_from_dict (d : dict var (pytree T)) : result assign :=
  make_from_partial_dict (dict_keys d) d.

(* :109-120 the loop of update_storage_layout building shuffle_indices *)
Definition shuffle_step (src dst : layout) (sh : list nat) (v : var) : result (list nat) :=
  si <- dict_getE (l_index src) v ;;
  ti <- dict_getE (l_index dst) v ;;
  let d := vdim C (l_local dst) v in
  at_set sh ti (ti + d) (arange si d).

(* :85-124 update_storage_layout *)
Definition update_storage_layout (a : assign) (L : layout) : result assign :=
  if layout_eqb (as_layout a) L then Ok a
  else
    _ <- assert_ (Nat.eqb (l_dim (as_layout a)) (l_dim L)) ;;
    _ <- assert_ (Bool.eqb (l_local (as_layout a)) (l_local L)) ;;
    _ <- assert_ (set_eqb (get_variables (as_layout a)) (get_variables L)) ;;
    sh <- foldM (shuffle_step (as_layout a) L) (get_variables L) (repeat 0 (l_dim L)) ;;
    let st := gather n0 (as_storage a) sh in
    _ <- assert_ (Nat.eqb (length st) (length (as_storage a))) ;;
    Ok (mkAssign st L).

(* :146-151 get_value *)
Definition get_value (a : assign) (v : var) : result (pytree T) :=
  i <- dict_getE (l_index (as_layout a)) v ;;
  unflatten (C (v_ty v)) (slice (as_storage a) i (i + vpdim C v)).

(* :126-128 as_dict *)
Definition as_dict (a : assign) : result (dict var (pytree T)) :=
  traverse (fun v => x <- get_value a v ;; Ok (v, x)) (get_variables (as_layout a)).

(* :153-163 get_stacked_value; the stacked pytree is represented by the list of its rows *)
Definition get_stacked_value (a : assign) (t : vty) : result (list (pytree T)) :=
  i <- dict_getE (l_tindex (as_layout a)) t ;;
  n <- dict_getE (l_tcount (as_layout a)) t ;;
  rows <- reshape2 n (param_dim (C t)) (slice (as_storage a) i (i + param_dim (C t) * n)) ;;
  traverse (unflatten (C t)) rows.

(* :165-177 set_value *)
Definition set_value (a : assign) (v : var) (x : pytree T) : result assign :=
  i <- dict_getE (l_index (as_layout a)) v ;;
  st <- at_set (as_storage a) i (i + vpdim C v) (flatten x) ;;
  Ok (mkAssign st (as_layout a)).

(* one row of the batched update :211-222: flatten(retract(unflatten(x), delta)) *)
Definition retract_row (c : vclass T) (xd : list T * list T) : result (list T) :=
  x <- unflatten c (fst xd) ;;
  y <- retract c x (snd xd) ;;
  Ok (flatten y).

(* loop body of manifold_retract, :192-222 *)
Definition retract_type (a delta : assign) (new : list T) (t : vty) : result (list T) :=
  count <- dict_getE (l_tcount (as_layout a)) t ;;
  si <- dict_getE (l_tindex (as_layout a)) t ;;
  li <- dict_getE (l_tindex (as_layout delta)) t ;;
  let dim := param_dim (C t) in
  let ldim := local_dim (C t) in
  xs <- reshape2 count dim (slice (as_storage a) si (si + dim * count)) ;;
  ds <- reshape2 count ldim (slice (as_storage delta) li (li + ldim * count)) ;;
  rows <- traverse (retract_row (C t)) (combine xs ds) ;;
  at_set new si (si + dim * count) (concat rows).

(* :179-224 manifold_retract *)
Definition manifold_retract (a delta : assign) : result assign :=
  _ <- assert_ (negb (l_local (as_layout a))) ;;
  _ <- assert_ (l_local (as_layout delta)) ;;
  st <- foldM (retract_type a delta) (get_variable_types (as_layout a))
              (repeat n0 (length (as_storage a))) ;;
  Ok (mkAssign st (as_layout a)).

End Model.
Arguments assign : clear implicits.
