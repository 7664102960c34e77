(* Python prelude: exceptions as values, insertion-ordered dictionaries. *)
From Coq Require Import List Arith Bool.
Import ListNotations.

(* The exceptions the modelled code can raise. *)
Inductive exn := KeyError | AssertionError | TypeError | ValueError | IndexError
               | NotImplementedError.

Inductive result (A : Type) : Type :=
| Ok (a : A)
| Err (e : exn).
Arguments Ok {A} a.
Arguments Err {A} e.

Definition bind {A B} (r : result A) (f : A -> result B) : result B :=
  match r with Ok a => f a | Err e => Err e end.
Notation "x <- r ;; k" := (bind r (fun x => k)) (at level 80, r at level 79, right associativity).
Notation "' p <- r ;; k" := (bind r (fun p => k)) (at level 80, p pattern, r at level 79, right associativity).

(* assert b *)
Definition assert_ (b : bool) : result unit := if b then Ok tt else Err AssertionError.

(* [f(x) for x in l], f may raise *)
Fixpoint traverse {A B} (f : A -> result B) (l : list A) : result (list B) :=
  match l with
  | [] => Ok []
  | x :: r => y <- f x ;; ys <- traverse f r ;; Ok (y :: ys)
  end.

(* for x in l: s = f(s, x), f may raise *)
Fixpoint foldM {A S} (f : S -> A -> result S) (l : list A) (s : S) : result S :=
  match l with
  | [] => Ok s
  | x :: r => s' <- f s x ;; foldM f r s'
  end.

(* Decidable equality used for dictionary keys (Python __eq__/__hash__). *)
Class Eqb (K : Type) := { eqb : K -> K -> bool; eqb_ok : forall x y, eqb x y = true <-> x = y }.

#[export] Instance Eqb_nat : Eqb nat := {| eqb := Nat.eqb; eqb_ok := Nat.eqb_eq |}.

Definition dict (K V : Type) := list (K * V).   (* insertion order; Python >= 3.7 *)

Section Dict.
Context {K V : Type} `{Eqb K}.

(* k in d / d[k] *)
Fixpoint dict_get (d : dict K V) (k : K) : option V :=
  match d with
  | [] => None
  | (k', v) :: r => if eqb k k' then Some v else dict_get r k
  end.

Definition dict_mem (d : dict K V) (k : K) : bool :=
  match dict_get d k with Some _ => true | None => false end.

(* d[k], raising KeyError *)
Definition dict_getE (d : dict K V) (k : K) : result V :=
  match dict_get d k with Some v => Ok v | None => Err KeyError end.

(* d[k] = v : an existing key keeps its position *)
Fixpoint dict_set (d : dict K V) (k : K) (v : V) : dict K V :=
  match d with
  | [] => [(k, v)]
  | (k', v') :: r => if eqb k k' then (k', v) :: r else (k', v') :: dict_set r k v
  end.

Definition dict_keys (d : dict K V) : list K := map fst d.

(* dict equality ignores order: same key set, same values.
   Python: len(d1) == len(d2) and all(k in d2 and d2[k] == d1[k]) *)
Definition dict_eqb (veqb : V -> V -> bool) (d1 d2 : dict K V) : bool :=
  Nat.eqb (length d1) (length d2) &&
  forallb (fun kv => match dict_get d2 (fst kv) with
                     | Some v => veqb (snd kv) v
                     | None => false
                     end) d1.
End Dict.

(* defaultdict(list): d[k].append(v) *)
Definition dict_append {K V} `{Eqb K} (d : dict K (list V)) (k : K) (v : V) : dict K (list V) :=
  dict_set d k (match dict_get d k with Some l => l ++ [v] | None => [v] end).

(* set(l1) == set(l2) *)
Definition mem {K} `{Eqb K} (k : K) (l : list K) : bool := existsb (eqb k) l.
Definition set_eqb {K} `{Eqb K} (l1 l2 : list K) : bool :=
  forallb (fun k => mem k l2) l1 && forallb (fun k => mem k l1) l2.
