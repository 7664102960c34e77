(* Model of jaxfg/core/_variables.py and jaxfg/core/_storage_layout.py *)
From Coq Require Import List Arith Bool.
From Verif Require Import Num Py Arr.
Import ListNotations.

(* A variable type is a Python class; classes are compared by identity. *)
Definition vty := nat.

(* A variable is a Python object without state; objects are compared and hashed by
   identity (VariableBase defines no __eq__): jaxfg/core/_variables.py:18,80-82.
   [v_id] is the object identity, [v_ty] its class (type(variable)). *)
Record var := mkVar { v_id : nat; v_ty : vty }.

Definition var_eqb (a b : var) : bool := Nat.eqb (v_id a) (v_id b) && Nat.eqb (v_ty a) (v_ty b).
Lemma var_eqb_ok a b : var_eqb a b = true <-> a = b.
Proof.
  destruct a as [i t], b as [j u]; unfold var_eqb; simpl.
  rewrite andb_true_iff, !Nat.eqb_eq. split; [intros [-> ->]; reflexivity | intros [= -> ->]; auto].
Qed.
#[export] Instance Eqb_var : Eqb var := {| eqb := var_eqb; eqb_ok := var_eqb_ok |}.

(* What a user writes in a VariableBase subclass (jaxfg/core/_variables.py:21-50):
   the default value and the two optional overrides. *)
Record vclass (T : Type) := mkVclass {
  vc_default : pytree T;                                              (* get_default_value, :23-26 *)
  vc_local : option nat;                                              (* get_local_parameter_dim, :30-33 *)
  vc_retract : option (pytree T -> list T -> result (pytree T))       (* manifold_retract, :35-50 *)
}.
Arguments mkVclass {T}. Arguments vc_default {T}. Arguments vc_local {T}. Arguments vc_retract {T}.

Section Model.
Context {T : Type} {N : Num T}.

(* jaxfg/core/_variables.py:84-103, __init_subclass__ + get_parameter_dim *)
Definition param_dim (c : vclass T) : nat := length (ravel (vc_default c)).

(* jaxfg/core/_variables.py:30-33 *)
Definition local_dim (c : vclass T) : nat :=
  match vc_local c with Some n => n | None => param_dim c end.

(* jaxfg/core/_variables.py:105-118, flatten *)
Definition flatten (x : pytree T) : list T := ravel x.

(* jaxfg/core/_variables.py:120-131, unflatten (the closure made by ravel_pytree on the
   default value; jnp.split/reshape raise when the size is wrong) *)
Definition unflatten (c : vclass T) (v : list T) : result (pytree T) :=
  if Nat.eqb (length v) (param_dim c) then Ok (fst (unravel (vc_default c) v)) else Err ValueError.

(* jaxfg/core/_variables.py:35-50, manifold_retract (default: flat addition, which raises
   on unequal lengths; simplification: numpy's broadcasting of a length-1 operand is
   treated as an error) *)
Definition retract (c : vclass T) (x : pytree T) (delta : list T) : result (pytree T) :=
  match vc_retract c with
  | Some f => f x delta
  | None => if Nat.eqb (length (flatten x)) (length delta)
            then unflatten c (vadd (flatten x) delta) else Err TypeError
  end.

(* All variable classes of the program. *)
Definition cenv := vty -> vclass T.
Variable C : cenv.

Definition vpdim (v : var) : nat := param_dim (C (v_ty v)).
Definition vldim (v : var) : nat := local_dim (C (v_ty v)).
(* dimension of a variable's block: jaxfg/core/_storage_layout.py:65-69 *)
Definition tdim (local : bool) (t : vty) : nat :=
  if local then local_dim (C t) else param_dim (C t).
Definition vdim (local : bool) (v : var) : nat := tdim local (v_ty v).

(* jaxfg/core/_storage_layout.py:11-35 *)
Record layout := mkLayout {
  l_local : bool;                       (* local_flag *)
  l_dim : nat;                          (* dim *)
  l_index : dict var nat;               (* index_from_variable *)
  l_tindex : dict vty nat;              (* index_from_variable_type *)
  l_tcount : dict vty nat               (* count_from_variable_type *)
}.

(* jaxfg/core/_storage_layout.py:37-40 *)
Definition get_variables (L : layout) : list var := dict_keys (l_index L).
(* jaxfg/core/_storage_layout.py:42-45 *)
Definition get_variable_types (L : layout) : list vty := dict_keys (l_tindex L).

(* jaxfg/core/_storage_layout.py:50-55: bucket variables by type *)
Definition bucket (vs : list var) : dict vty (list var) :=
  fold_left (fun d v => dict_append d (v_ty v) v) vs [].

(* jaxfg/core/_storage_layout.py:57-69: the loop state is
   (index_from_variable, index_from_variable_type, storage_index) *)
Definition lstate := (dict var nat * dict vty nat * nat)%type.

(* inner loop, :63-69 *)
Definition place_var (local : bool) (s : dict var nat * nat) (v : var) : dict var nat * nat :=
  let '(idx, i) := s in (dict_set idx v i, i + vdim local v).

(* outer loop body, :61-69 *)
Definition place_type (local : bool) (s : lstate) (kv : vty * list var) : lstate :=
  let '(idx, tix, i) := s in
  let '(t, vs) := kv in
  let '(idx', i') := fold_left (place_var local) vs (idx, i) in
  (idx', dict_set tix t i, i').

(* jaxfg/core/_storage_layout.py:47-79, StorageLayout.make *)
Definition make_layout (vs : list var) (local : bool) : layout :=
  let b := bucket vs in
  let '(idx, tix, i) := fold_left (place_type local) b ([], [], 0) in
  mkLayout local i idx tix (map (fun kv => (fst kv, length (snd kv))) b).

(* dataclass __eq__ over (local_flag, dim, frozendicts); dict equality ignores order *)
Definition layout_eqb (a b : layout) : bool :=
  Bool.eqb (l_local a) (l_local b) && Nat.eqb (l_dim a) (l_dim b)
  && dict_eqb Nat.eqb (l_index a) (l_index b)
  && dict_eqb Nat.eqb (l_tindex a) (l_tindex b)
  && dict_eqb Nat.eqb (l_tcount a) (l_tcount b).

End Model.
