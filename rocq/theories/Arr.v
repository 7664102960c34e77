(* JAX / numpy prelude: arrays, indexing, pytrees.  These are the library
   semantics the code of /repo relies on; they are part of the trusted base. *)
From Coq Require Import List Arith Bool.
From Verif Require Import Num Py.
Import ListNotations.

(* ---- one-dimensional storage operations ---- *)

(* l[a:b] with 0 <= a: Python / numpy slicing clamps to the length *)
Definition slice {A} (l : list A) (a b : nat) : list A := firstn (b - a) (skipn a l).

(* np.arange(a, a + n) *)
Definition arange (a n : nat) : list nat := seq a n.

(* l.at[a:b].set(v) for 0 <= a <= b: the slice is clamped to the bounds, a value of
   length 1 is broadcast, any other length mismatch raises *)
Definition at_set {A} (l : list A) (a b : nat) (v : list A) : result (list A) :=
  let lo := Nat.min a (length l) in
  let hi := Nat.min b (length l) in
  if Nat.eqb (length v) (hi - lo) then Ok (firstn lo l ++ v ++ skipn hi l)
  else match v with
       | [x] => Ok (firstn lo l ++ repeat x (hi - lo) ++ skipn hi l)
       | _ => Err ValueError
       end.

(* l[idx] for an integer index array: out-of-range indices are clamped by XLA *)
Definition gather {A} (d : A) (l : list A) (idx : list nat) : list A :=
  map (fun i => nth (Nat.min i (length l - 1)) l d) idx.

(* split a list into n consecutive rows of width d *)
Fixpoint chunks {A} (n d : nat) (l : list A) : list (list A) :=
  match n with
  | O => []
  | S n' => firstn d l :: chunks n' d (skipn d l)
  end.

(* l.reshape((n, d)): raises unless sizes agree *)
Definition reshape2 {A} (n d : nat) (l : list A) : result (list (list A)) :=
  if Nat.eqb (length l) (n * d) then Ok (chunks n d l) else Err TypeError.

(* jnp.concatenate(ls, axis=0): raises on the empty list *)
Definition concatenate {A} (ls : list (list A)) : result (list A) :=
  match ls with [] => Err ValueError | _ => Ok (concat ls) end.

(* ---- arrays ---- *)
Record arr (T : Type) := mkArr { a_shape : list nat; a_data : list T }.  (* row-major *)
Arguments mkArr {T}. Arguments a_shape {T}. Arguments a_data {T}.

Definition size (s : list nat) : nat := fold_right Nat.mul 1 s.
Definition arr_ok {T} (a : arr T) : bool := Nat.eqb (length (a_data a)) (size (a_shape a)).

Fixpoint list_eqb {A} (e : A -> A -> bool) (l1 l2 : list A) : bool :=
  match l1, l2 with
  | [], [] => true
  | x :: r1, y :: r2 => e x y && list_eqb e r1 r2
  | _, _ => false
  end.
Definition shape_eqb := list_eqb Nat.eqb.

(* jnp.stack(arrays, axis=0) *)
Definition arr_stack {T} (l : list (arr T)) : result (arr T) :=
  match l with
  | [] => Err ValueError
  | a :: _ => if forallb (fun b => shape_eqb (a_shape b) (a_shape a)) l
              then Ok (mkArr (length l :: a_shape a) (concat (map a_data l)))
              else Err ValueError
  end.

(* x[n] along axis 0; this is what vmap feeds to the mapped function *)
Definition arr_index {T} (n : nat) (a : arr T) : arr T :=
  match a_shape a with
  | [] => a
  | _ :: s => mkArr s (slice (a_data a) (n * size s) (n * size s + size s))
  end.

(* ---- pytrees ---- *)
Inductive pytree (T : Type) :=
| Leaf (a : arr T)
| Node (tag : nat) (cs : list (pytree T)).   (* tag: container type + static data *)
Arguments Leaf {T}. Arguments Node {T}.

Inductive treedef := TLeaf | TNode (tag : nat) (cs : list treedef).

Section Tree.
Context {T : Type}.

Fixpoint leaves (t : pytree T) : list (arr T) :=
  match t with
  | Leaf a => [a]
  | Node _ cs => flat_map leaves cs
  end.

(* jax.tree_structure *)
Fixpoint structure (t : pytree T) : treedef :=
  match t with
  | Leaf _ => TLeaf
  | Node g cs => TNode g (map structure cs)
  end.

(* flatten_util.ravel_pytree(t)[0] (dtype promotion not modelled) *)
Definition ravel (t : pytree T) : list T := concat (map a_data (leaves t)).

(* flatten_util.ravel_pytree(example)[1]: consumes the flat vector leaf by leaf and
   returns what is left *)
Fixpoint unravel (ex : pytree T) (v : list T) : pytree T * list T :=
  match ex with
  | Leaf a => (Leaf (mkArr (a_shape a) (firstn (size (a_shape a)) v)), skipn (size (a_shape a)) v)
  | Node g cs =>
      let '(cs', v') :=
        (fix go (cs : list (pytree T)) (v : list T) : list (pytree T) * list T :=
           match cs with
           | [] => ([], v)
           | c :: r => let '(c', v1) := unravel c v in
                       let '(r', v2) := go r v1 in (c' :: r', v2)
           end) cs v in
      (Node g cs', v')
  end.

Definition as_leaf (t : pytree T) : result (arr T) :=
  match t with Leaf a => Ok a | Node _ _ => Err ValueError end.
Definition as_node (g n : nat) (t : pytree T) : result (list (pytree T)) :=
  match t with
  | Node g' cs => if Nat.eqb g g' && Nat.eqb n (length cs) then Ok cs else Err ValueError
  | Leaf _ => Err ValueError
  end.

(* jax.tree_map(lambda *a: jnp.stack(a, axis=0), *ts), h being the first tree:
   raises when the structures differ *)
Fixpoint tree_stack (h : pytree T) (ts : list (pytree T)) : result (pytree T) :=
  match h with
  | Leaf _ => l <- traverse as_leaf ts ;; a <- arr_stack l ;; Ok (Leaf a)
  | Node g cs =>
      css <- traverse (as_node g (length cs)) ts ;;
      r <- (fix go (cs : list (pytree T)) (css : list (list (pytree T))) : result (list (pytree T)) :=
              match cs with
              | [] => Ok []
              | c :: cs' => x <- tree_stack c (map (hd c) css) ;;
                            xs <- go cs' (map (@tl _) css) ;; Ok (x :: xs)
              end) cs css ;;
      Ok (Node g r)
  end.

Fixpoint tree_index (n : nat) (t : pytree T) : pytree T :=
  match t with
  | Leaf a => Leaf (arr_index n a)
  | Node g cs => Node g (map (tree_index n) cs)
  end.
End Tree.

Fixpoint treedef_eqb (a b : treedef) : bool :=
  match a, b with
  | TLeaf, TLeaf => true
  | TNode g cs, TNode g' cs' =>
      Nat.eqb g g' &&
      (fix go (l1 l2 : list treedef) : bool :=
         match l1, l2 with
         | [], [] => true
         | x :: r1, y :: r2 => treedef_eqb x y && go r1 r2
         | _, _ => false
         end) cs cs'
  | _, _ => false
  end.
