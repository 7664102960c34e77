(* Theorems C05-C12, C53, C54: variable assignments. *)
From Coq Require Import List Arith Bool ZArith.
From Verif Require Import Num Py Arr PBase MLayout SpecLayout SpecTree MAssign SpecAssign PLayout PTree
  PAssign PAssign2 PAssign3 Ex NumF32 PExAssign.
Import ListNotations.
Local Open Scope nat_scope.
#[local] Existing Instance NumF32.

Theorem C05_make_from_dict_round_trip :
  forall (T : Type) (C : cenv (T := T)), classes_ok C ->
  (forall d : dict var (pytree T), NoDup (map fst d) -> d <> [] ->
     (forall v x, In (v, x) d -> value_ok (C (v_ty v)) x) ->
     exists a, make_from_dict C d = Ok a /\ wf_assign C (map fst d) false a /\
       (forall v x, In (v, x) d -> get_value C a v = Ok x) /\
       (forall v, ~ In v (map fst d) -> get_value C a v = Err KeyError) /\
       (exists d', as_dict C a = Ok d' /\ forall v x, In (v, x) d' <-> In (v, x) d)) /\
  (forall vs (d : dict var (pytree T)), NoDup vs -> vs <> [] ->
     (forall v x, In v vs -> dict_get d v = Some x -> value_ok (C (v_ty v)) x) ->
     exists a, make_from_partial_dict C vs d = Ok a /\ wf_assign C vs false a /\
       (forall v, In v vs -> get_value C a v = Ok (lookup_or_default C d v)) /\
       (forall v, ~ In v vs -> get_value C a v = Err KeyError)).
Proof. exact (@construction_values). Qed.
Print Assumptions C05_make_from_dict_round_trip.

Example C05_example : classes_ok (exC (N := NumF32)) /\ NoDup (map fst ex_dict) /\ ex_dict <> [] /\
  (forall v x, In (v, x) ex_dict -> value_ok (exC (N := NumF32) (v_ty v)) x) /\
  exists a, make_from_dict exC ex_dict = Ok a /\ get_value exC a vb = Ok ex_pose_value.
Proof. exact ex_dict_ok. Qed.

Theorem C06_make_from_defaults :
  forall (T : Type) (C : cenv (T := T)), classes_ok C ->
  forall vs, NoDup vs -> vs <> [] ->
  make_from_defaults C vs = make_from_partial_dict C vs [] /\
  exists a, make_from_defaults C vs = Ok a /\ wf_assign C vs false a /\
    forall v, In v vs -> get_value C a v = Ok (vc_default (C (v_ty v))).
Proof. exact (@defaults_values). Qed.
Print Assumptions C06_make_from_defaults.

Example C06_example : NoDup ex_vars /\ ex_vars <> [] /\
  exists a, make_from_defaults (exC (N := NumF32)) ex_vars = Ok a /\ length (as_storage a) = 16.
Proof. exact ex_defaults_ok. Qed.

Theorem C07_dict_round_trip :
  forall (T : Type) (N : Num T) (C : cenv (T := T)), classes_ok C ->
  forall vs a, vs <> [] -> wf_assign C vs false a ->
  exists d, as_dict C a = Ok d /\ make_from_dict C d = Ok a.
Proof. intros T N C CO vs a. exact (@dict_round_trip T C vs a CO). Qed.
Print Assumptions C07_dict_round_trip.

Example C07_example : wf_assign (exC (N := NumF32)) ex_vars false ex_assign.
Proof. exact ex_assign_wf. Qed.

Theorem C08_set_value_lens :
  forall (T : Type) (C : cenv (T := T)), classes_ok C ->
  forall vs a, wf_assign C vs false a ->
  (forall v x, In v vs -> value_ok (C (v_ty v)) x ->
     exists a', set_value C a v x = Ok a' /\ wf_assign C vs false a' /\ as_layout a' = as_layout a /\
       get_value C a' v = Ok x /\ (forall w, w <> v -> get_value C a' w = get_value C a w)) /\
  (forall v x y a', In v vs -> value_ok (C (v_ty v)) x -> value_ok (C (v_ty v)) y ->
     set_value C a v x = Ok a' -> set_value C a' v y = set_value C a v y) /\
  (forall v x, In v vs -> get_value C a v = Ok x -> set_value C a v x = Ok a) /\
  (forall v x, ~ In v vs -> set_value C a v x = Err KeyError).
Proof. exact (@lens_laws). Qed.
Print Assumptions C08_set_value_lens.

Example C08_example : wf_assign (exC (N := NumF32)) ex_vars false ex_assign /\
  value_ok (exC (N := NumF32) (v_ty vd)) ex_pose_value /\ In vd ex_vars.
Proof. exact (conj ex_assign_wf (conj ex_pose_value_ok ex_in_vd)). Qed.

Theorem C09_update_storage_layout :
  forall (T : Type) (N : Num T) (C : cenv (T := T)), classes_ok C ->
  (* global assignments: values survive *)
  (forall vs vs' a, wf_assign C vs false a -> NoDup vs' -> (forall v, In v vs <-> In v vs') ->
     exists a', update_storage_layout C a (make_layout C vs' false) = Ok a' /\
       same_layout (as_layout a') (make_layout C vs' false) /\
       forall v, get_value C a' v = get_value C a v) /\
  (* global and local assignments: every variable's block survives *)
  (forall vs vs' local a, wf_assign C vs local a -> NoDup vs' -> (forall v, In v vs <-> In v vs') ->
     exists a', update_storage_layout C a (make_layout C vs' local) = Ok a' /\
       same_layout (as_layout a') (make_layout C vs' local) /\
       forall v, In v vs' ->
         block C (make_layout C vs' local) (as_storage a') v = block C (as_layout a) (as_storage a) v) /\
  (* going there and back restores the storage *)
  (forall vs vs' local a a' a'', wf_assign C vs local a -> NoDup vs' ->
     update_storage_layout C a (make_layout C vs' local) = Ok a' ->
     update_storage_layout C a' (make_layout C vs local) = Ok a'' -> as_storage a'' = as_storage a) /\
  (* incompatible layouts are rejected *)
  (forall vs vs' local local' a, wf_assign C vs local a -> NoDup vs' ->
     l_dim (as_layout a) <> l_dim (make_layout C vs' local') \/ local <> local' \/ ~ (forall v, In v vs <-> In v vs') ->
     update_storage_layout C a (make_layout C vs' local') = Err AssertionError).
Proof. exact (@update_laws). Qed.
Print Assumptions C09_update_storage_layout.

Example C09_example : wf_assign (exC (N := NumF32)) ex_vars false ex_assign /\
  exists a', update_storage_layout (N := NumF32) exC ex_assign (make_layout exC [vd; vc; vb; va] false) = Ok a' /\
    as_storage a' <> as_storage ex_assign.
Proof. exact ex_update_ok. Qed.

Theorem C10_get_stacked_value :
  forall (T : Type) (N : Num T) (C : cenv (T := T)) vs a t, classes_ok C ->
  wf_assign C vs false a -> In t (map v_ty vs) ->
  exists rows, get_stacked_value C a t = Ok rows /\ length rows = length (of_type t vs) /\
    forall k v, nth_error (of_type t vs) k = Some v ->
      exists x, nth_error rows k = Some x /\ get_value C a v = Ok x.
Proof. intros T N. exact (@stacked_ok T). Qed.
Print Assumptions C10_get_stacked_value.

Example C10_example : wf_assign (exC (N := NumF32)) ex_vars false ex_assign /\ of_type 1 ex_vars = [vb; vd] /\
  exists rows, get_stacked_value exC ex_assign 1 = Ok rows /\ length rows = 2.
Proof. exact ex_stacked. Qed.

Theorem C11_manifold_retract_per_variable :
  forall (T : Type) (N : Num T) (C : cenv (T := T)) vs vs' a delta (y : var -> pytree T), classes_ok C ->
  wf_assign C vs false a -> wf_assign C vs' true delta ->
  (forall t, of_type t vs' = of_type t vs) ->
  (forall v, In v vs -> exists x, get_value C a v = Ok x /\
     retract (C (v_ty v)) x (block C (as_layout delta) (as_storage delta) v) = Ok (y v) /\
     value_ok (C (v_ty v)) (y v)) ->
  exists a', manifold_retract C a delta = Ok a' /\ as_layout a' = as_layout a /\
    forall v, In v vs -> get_value C a' v = Ok (y v).
Proof. exact (@retract_per_variable). Qed.
Print Assumptions C11_manifold_retract_per_variable.

Example C11_example :
  wf_assign (exC (N := NumF32)) ex_vars false ex_assign /\ wf_assign (exC (N := NumF32)) ex_vars true ex_delta /\
  exists a' x, manifold_retract (N := NumF32) exC ex_assign ex_delta = Ok a' /\
    get_value exC a' vb = Ok x /\ get_value exC ex_assign vb <> Ok x.
Proof. exact ex_retract. Qed.

(* classes without overrides: the tangent vector has one entry per scalar and is added entry by entry *)
Theorem C11_plain_classes_add :
  forall (T : Type) (N : Num T) (C : cenv (T := T)) vs vs' a delta, classes_ok C ->
  wf_assign C vs false a -> wf_assign C vs' true delta ->
  (forall t, of_type t vs' = of_type t vs) ->
  (forall v, In v vs -> plain_class (C (v_ty v))) ->
  exists a', manifold_retract C a delta = Ok a' /\ as_layout a' = as_layout a /\
    forall v, In v vs -> exists x y, get_value C a v = Ok x /\ get_value C a' v = Ok y /\
      let d := block C (as_layout delta) (as_storage delta) v in
      length d = scalars (vc_default (C (v_ty v))) /\ length (ravel x) = length d /\ length (ravel y) = length d /\
      forall i, i < length d -> nth i (ravel y) n0 = nadd (nth i (ravel x) n0) (nth i d n0).
Proof. exact (@plain_retraction). Qed.
Print Assumptions C11_plain_classes_add.

Example C11_plain_example :
  plain_class (exC (N := NumF32) (v_ty va)) /\ ~ plain_class (exC (N := NumF32) (v_ty vb)) /\
  wf_assign (exC (N := NumF32)) [va; vc] false (mkAssign (map fz [0; 1; 2; 3]%Z) (make_layout exC [va; vc] false)) /\
  exists a', manifold_retract (N := NumF32) exC (mkAssign (map fz [0; 1; 2; 3]%Z) (make_layout exC [va; vc] false))
    (mkAssign (map fz [10; 20; 30; 40]%Z) (make_layout exC [va; vc] true)) = Ok a' /\ as_storage a' = map fz [10; 21; 32; 43]%Z.
Proof. exact ex_plain. Qed.

(* the general rule: the k-th variable of a type gets the delta of the k-th variable of that
   type in the delta's own layout *)
Theorem C12_manifold_retract_positional :
  forall (T : Type) (N : Num T) (C : cenv (T := T)) vs vs' a delta (sg : var -> var) (y : var -> pytree T), classes_ok C ->
  wf_assign C vs false a -> wf_assign C vs' true delta ->
  (forall t, of_type t vs' = map sg (of_type t vs)) ->
  (forall v, In v vs -> exists x, get_value C a v = Ok x /\
     retract (C (v_ty v)) x (block C (as_layout delta) (as_storage delta) (sg v)) = Ok (y v) /\
     value_ok (C (v_ty v)) (y v)) ->
  exists a', manifold_retract C a delta = Ok a' /\ as_layout a' = as_layout a /\
    wf_assign C vs false a' /\ forall v, In v vs -> get_value C a' v = Ok (y v).
Proof. exact (@retract_values). Qed.
Print Assumptions C12_manifold_retract_positional.

(* hence the per-variable claim fails without the order guard *)
Theorem C12_per_variable_refuted :
  exists (C : cenv (T := f32)) vs vs' a delta a' v x y,
    classes_ok C /\ wf_assign C vs false a /\ wf_assign C vs' true delta /\
    (forall w, In w vs <-> In w vs') /\ In v vs /\
    manifold_retract (N := NumF32) C a delta = Ok a' /\
    get_value C a v = Ok x /\
    retract (N := NumF32) (C (v_ty v)) x (block C (as_layout delta) (as_storage delta) v) = Ok y /\
    get_value C a' v <> Ok y.
Proof. exact retract_mispairs. Qed.
Print Assumptions C12_per_variable_refuted.

Theorem C53_duplicates :
  forall (T : Type) (N : Num T) (C : cenv (T := T)), classes_ok C ->
  (forall vs (d : dict var (pytree T)), vs <> [] ->
     (forall v x, In v vs -> dict_get d v = Some x -> value_ok (C (v_ty v)) x) ->
     (make_from_partial_dict C vs d = Err AssertionError <-> repeated C vs) /\
     (~ repeated C vs -> exists a, make_from_partial_dict C vs d = Ok a)) /\
  (forall vs, repeated C vs ->
     exists a, make_from_defaults C vs = Ok a /\
       total (vpdim C) (get_variables (as_layout a)) < length (as_storage a) /\
       forall vs', NoDup vs' -> update_storage_layout C a (make_layout C vs' false) = Err AssertionError).
Proof. exact (@duplicates_laws). Qed.
Print Assumptions C53_duplicates.

Example C53_example : repeated (exC (N := NumF32)) [va; vb; va].
Proof. exact ex_repeated. Qed.

Theorem C54_get_value_on_local_assignments :
  forall (T : Type) (C : cenv (T := T)) vs a v i, classes_ok C ->
  wf_assign C vs true a -> dict_get (l_index (as_layout a)) v = Some i ->
  (vldim C v = vpdim C v ->
     exists x, get_value C a v = Ok x /\ flatten x = slice (as_storage a) i (i + vldim C v)) /\
  (vpdim C v < vldim C v ->
     exists x, get_value C a v = Ok x /\ flatten x = slice (as_storage a) i (i + vpdim C v)) /\
  (vldim C v < vpdim C v -> length (as_storage a) < i + vpdim C v -> get_value C a v = Err ValueError) /\
  (vldim C v < vpdim C v -> i + vpdim C v <= length (as_storage a) ->
     exists x foreign, get_value C a v = Ok x /\
       flatten x = slice (as_storage a) i (i + vldim C v) ++ foreign /\
       length foreign = vpdim C v - vldim C v /\
       forall k y, nth_error foreign k = Some y ->
         exists w j m, w <> v /\ dict_get (l_index (as_layout a)) w = Some j /\ m < vldim C w /\
           nth_error (as_storage a) (j + m) = Some y).
Proof. exact (@local_reads). Qed.
Print Assumptions C54_get_value_on_local_assignments.

Example C54_example : wf_assign (exC (N := NumF32)) ex_vars true ex_delta /\
  (exists x, get_value exC ex_delta vb = Ok x) /\ get_value exC ex_delta vd = Err ValueError.
Proof. exact ex_local_reads. Qed.
