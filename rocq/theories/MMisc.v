(* Model of the caches and of build_variable_value_tuple:
   jaxfg/core/_variables.py:133-162, jaxfg/core/_factor_base.py:113-166,
   jaxfg/sparse/_linear_solve.py:36,77-88 *)
From Coq Require Import List Arith Bool ZArith.
From Verif Require Import Num Py Arr MLayout.
Import ListNotations.

(* ---- canonical_instance and RealVectorVariable (_variables.py) ---- *)

(* A subscript of RealVectorVariable[...]: Python compares and hashes 1, True and 1.0 as
   equal, and functools.lru_cache (typed=False) uses that equality. *)
Inductive pykey := KInt (z : Z) | KBool (b : bool) | KFloat (z : Z).   (* KFloat z: the float z.0 *)
Definition key_num (k : pykey) : Z :=
  match k with KInt z => z | KBool b => if b then 1%Z else 0%Z | KFloat z => z end.
Definition key_is_int (k : pykey) : bool :=        (* isinstance(dim, int); bool is a subclass *)
  match k with KFloat _ => false | _ => true end.

#[export] Instance Eqb_Z : Eqb Z := {| eqb := Z.eqb; eqb_ok := Z.eqb_eq |}.

(* heap: next object identity, next class identity, the two lru_caches *)
Record heap := mkHeap {
  h_next_obj : nat; h_next_cls : nat;
  h_canon : dict vty var;                 (* canonical_instance cache, keyed by class *)
  h_real : dict Z vty }.                  (* RealVectorVariable cache, keyed by dim *)

(* cls() : a fresh object *)
Definition new_var (t : vty) (h : heap) : var * heap :=
  (mkVar (h_next_obj h) t, mkHeap (S (h_next_obj h)) (h_next_cls h) (h_canon h) (h_real h)).

(* class statement: a fresh class *)
Definition new_class (h : heap) : vty * heap :=
  (h_next_cls h, mkHeap (h_next_obj h) (S (h_next_cls h)) (h_canon h) (h_real h)).

(* _variables.py:133-139 *)
Definition canonical_instance (t : vty) (h : heap) : var * heap :=
  match dict_get (h_canon h) t with
  | Some v => (v, h)
  | None => let '(v, h') := new_var t h in
            (v, mkHeap (h_next_obj h') (h_next_cls h') (dict_set (h_canon h') t v) (h_real h'))
  end.

(* _variables.py:143-158; a negative size makes jnp.zeros raise inside __init_subclass__ *)
Definition real_vector (k : pykey) (h : heap) : result vty * heap :=
  match dict_get (h_real h) (key_num k) with
  | Some t => (Ok t, h)
  | None =>
      if key_is_int k then
        if Z.ltb (key_num k) 0 then (Err ValueError, h)
        else let '(t, h') := new_class h in
             (Ok t, mkHeap (h_next_obj h') (h_next_cls h') (h_canon h') (dict_set (h_real h') (key_num k) t))
      else (Err AssertionError, h)
  end.

(* a call history of the program *)
Inductive hop := HNewVar (t : vty) | HNewClass | HCanonical (t : vty) | HReal (k : pykey).
Inductive hout := OVar (v : var) | OCls (r : result vty).
Definition hstep (o : hop) (h : heap) : hout * heap :=
  match o with
  | HNewVar t => let '(v, h') := new_var t h in (OVar v, h')
  | HNewClass => let '(t, h') := new_class h in (OCls (Ok t), h')
  | HCanonical t => let '(v, h') := canonical_instance t h in (OVar v, h')
  | HReal k => let '(r, h') := real_vector k h in (OCls r, h')
  end.
Fixpoint hrun (os : list hop) (h : heap) : list hout * heap :=
  match os with
  | [] => ([], h)
  | o :: r => let '(x, h') := hstep o h in
              let '(xs, h'') := hrun r h' in (x :: xs, h'')
  end.
Definition heap0 : heap := mkHeap 0 0 [] [].

(* ---- the CHOLMOD analysis cache (_linear_solve.py:36, 77-88) ---- *)

(* An object is known to the cache by object.__hash__(self), i.e. by its address.
   A sparsity pattern is the shape and the list of stored positions of A.T. *)
Definition addr := nat.
Definition pattern := (nat * nat * list (nat * nat))%type.
Inductive cop :=
| CSolve (a : addr) (p : pattern)      (* _solve on the object living at address a *)
| CFree (a : addr).                    (* that object is garbage collected; the address may be reused *)
(* the cache maps addresses to the analysis, represented by the analysed pattern;
   the output of a solve is the analysis it factorises with *)
Definition cstep (o : cop) (c : dict addr pattern) : option pattern * dict addr pattern :=
  match o with
  | CSolve a p =>
      match dict_get c a with
      | Some q => (Some q, c)
      | None => (Some p, dict_set c a p)
      end
  | CFree _ => (None, c)                (* nothing removes entries *)
  end.
Fixpoint crun (os : list cop) (c : dict addr pattern) : list (option pattern) * dict addr pattern :=
  match os with
  | [] => ([], c)
  | o :: r => let '(x, c') := cstep o c in
              let '(xs, c'') := crun r c' in (x :: xs, c'')
  end.

(* ---- build_variable_value_tuple (_factor_base.py:113-166) ---- *)

(* element types of a hint; Ellipsis is a possible element *)
Inductive elt := TyElt (t : nat) | TyEllipsis.
(* the type hint of "variable_values": absent, a NamedTuple class (tag, field types), or a
   typing.Tuple[...] *)
Inductive hint := NoHint | HNamed (tag : nat) (ts : list elt) | HTuple (ts : list elt).
(* the returned value: the plain tuple, or the named tuple instance *)
Inductive vtuple (V : Type) := Plain (vs : list V) | Named (tag : nat) (vs : list V).
Arguments Plain {V}. Arguments Named {V}.

Section Tuple.
Context {V : Type}.
Variable isinstance : V -> nat -> bool.

Definition isinstance_elt (v : V) (e : elt) : result bool :=
  match e with TyElt t => Ok (isinstance v t) | TyEllipsis => Err TypeError end.

(* :152-154 *)
Definition expand_ellipsis (ts : list elt) (n : nat) : list elt :=
  match ts with
  | [e; TyEllipsis] => repeat e n
  | _ => ts
  end.

(* :156-164; zip stops at the shorter sequence, lengths having been asserted equal *)
Fixpoint check_elts (vs : list V) (ts : list elt) : result unit :=
  match vs, ts with
  | v :: vr, t :: tr => b <- isinstance_elt v t ;; _ <- assert_ b ;; check_elts vr tr
  | _, _ => Ok tt
  end.

(* :113-166.  value_type( *variable_values ) of a NamedTuple raises TypeError on a wrong
   number of arguments (no field defaults). *)
Definition build_variable_value_tuple (h : hint) (vs : list V) : result (vtuple V) :=
  match h with
  | NoHint => Err NotImplementedError
  | HNamed tag ts =>
      if Nat.eqb (length ts) (length vs) then
        let ts' := expand_ellipsis ts (length vs) in
        _ <- assert_ (Nat.eqb (length vs) (length ts')) ;;
        _ <- check_elts vs ts' ;;
        Ok (Named tag vs)
      else Err TypeError
  | HTuple ts =>
      let ts' := expand_ellipsis ts (length vs) in
      _ <- assert_ (Nat.eqb (length vs) (length ts')) ;;
      _ <- check_elts vs ts' ;;
      Ok (Plain vs)
  end.
End Tuple.
