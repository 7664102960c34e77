(* Theorems C01-C04: storage layouts and flattening. *)
From Coq Require Import List Arith Bool ZArith Sorting.Sorted.
Local Open Scope nat_scope.
From Verif Require Import Num Py Arr PBase MLayout SpecLayout SpecTree SpecAssign PLayout PTree PStop Ex NumF32.
Import ListNotations.

Theorem C01_layout_blocks_tile :
  forall (T : Type) (C : cenv (T := T)) (vs : list var) (local : bool), NoDup vs ->
  let L := make_layout C vs local in
  l_local L = local /\
  l_dim L = total (vdim C local) vs /\
  (forall v, In v vs <-> exists i, dict_get (l_index L) v = Some i) /\
  (forall v i, dict_get (l_index L) v = Some i -> i + vdim C local v <= l_dim L) /\
  (forall v w i j, dict_get (l_index L) v = Some i -> dict_get (l_index L) w = Some j -> v <> w ->
     i + vdim C local v <= j \/ j + vdim C local w <= i) /\
  (forall k, k < l_dim L -> exists! v, exists i, dict_get (l_index L) v = Some i /\ i <= k < i + vdim C local v).
Proof. exact (@blocks_tile). Qed.
Print Assumptions C01_layout_blocks_tile.

Example C01_example : NoDup ex_vars /\ l_dim (make_layout (exC (N := NumF32)) ex_vars false) = 16
  /\ l_dim (make_layout (exC (N := NumF32)) ex_vars true) = 10
  /\ dict_get (l_index (make_layout (exC (N := NumF32)) ex_vars false)) vd = Some 10.
Proof. split; [repeat constructor; simpl; intuition discriminate | vm_compute; auto]. Qed.

Theorem C01_block_sizes :
  forall (T : Type) (C : cenv (T := T)) t, tree_ok (vc_default (C t)) ->
  tdim C false t = scalars (vc_default (C t)) /\
  tdim C true t = match vc_local (C t) with Some n => n | None => scalars (vc_default (C t)) end /\
  forall local v, v_ty v = t -> vdim C local v = tdim C local t.
Proof. exact (@block_sizes). Qed.
Print Assumptions C01_block_sizes.

Example C01_sizes_example : tree_ok (vc_default (exC (N := NumF32) 1)) /\ tdim (exC (N := NumF32)) false 1 = 6 /\ tdim (exC (N := NumF32)) true 1 = 3.
Proof. split; [repeat constructor | vm_compute; auto]. Qed.

Theorem C02_layout_order_and_runs :
  forall (T : Type) (C : cenv (T := T)) (vs : list var) (local : bool), NoDup vs ->
  let L := make_layout C vs local in
  get_variables L = flat_map (fun t => of_type t vs) (firsts (map v_ty vs)) /\
  get_variable_types L = firsts (map v_ty vs) /\
  StronglySorted le (map snd (l_index L)) /\
  StronglySorted le (map snd (l_tindex L)) /\
  (forall t, In t (map v_ty vs) ->
     dict_get (l_tcount L) t = Some (length (of_type t vs)) /\
     exists ti, dict_get (l_tindex L) t = Some ti /\
       forall k v, nth_error (of_type t vs) k = Some v ->
         dict_get (l_index L) v = Some (ti + k * tdim C local t)).
Proof. exact (@order_and_runs). Qed.
Print Assumptions C02_layout_order_and_runs.

Example C02_example : NoDup ex_vars
  /\ get_variables (make_layout (exC (N := NumF32)) ex_vars true) = [va; vc; vb; vd]
  /\ dict_get (l_index (make_layout (exC (N := NumF32)) ex_vars true)) vd = Some (4 + 1 * 3).
Proof. split; [repeat constructor; simpl; intuition discriminate | vm_compute; auto]. Qed.

Theorem C03_local_global_same_enumeration :
  forall (T : Type) (C : cenv (T := T)) (vs : list var),
  get_variables (make_layout C vs true) = get_variables (make_layout C vs false) /\
  get_variable_types (make_layout C vs true) = get_variable_types (make_layout C vs false) /\
  l_tcount (make_layout C vs true) = l_tcount (make_layout C vs false).
Proof. exact (@local_global_enumerate). Qed.
Print Assumptions C03_local_global_same_enumeration.

Example C03_example :   (* with a repeated variable *)
  get_variables (make_layout (exC (N := NumF32)) [vb; va; vb] true) = [vb; va].
Proof. vm_compute. auto. Qed.

Theorem C04_flatten_unflatten_inverse :
  forall (T : Type) (c : vclass T), tree_ok (vc_default c) ->
  (forall x, value_ok c x -> length (flatten x) = param_dim c /\ unflatten c (flatten x) = Ok x) /\
  (forall v, length v = param_dim c -> exists x, unflatten c v = Ok x /\ value_ok c x /\ flatten x = v) /\
  (forall v, length v <> param_dim c -> unflatten c v = Err ValueError).
Proof. exact (@flatten_laws). Qed.
Print Assumptions C04_flatten_unflatten_inverse.

Example C04_example : let c := ex_pose (N := NumF32) in
  tree_ok (vc_default c) /\ param_dim c = 6 /\
  unflatten c (map (lit (N := NumF32)) [1; 2; 3; 4; 5; 6]%Z) =
  Ok (Node 7 [leaf1 (map (lit (N := NumF32)) [1; 2; 3; 4]%Z);
              Node 3 [Leaf (mkArr [1; 2] (map (lit (N := NumF32)) [5; 6]%Z))]]).
Proof. split; [repeat constructor | vm_compute; auto]. Qed.
