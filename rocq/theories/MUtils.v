(* Model of jaxfg/utils.py.  Deprecation warnings, dtype promotion and the bold escape codes
   are left out. *)
From Coq Require Import List Arith Bool ZArith String.
From Verif Require Import Num Py Arr.
Import ListNotations.

Section Arrays.
Context {T : Type}.

(* JAX's canonicalisation of an axis of an nd-dimensional result *)
Definition norm_axis (nd : nat) (axis : Z) : result nat :=
  if Z.leb (- Z.of_nat nd) axis && Z.ltb axis (Z.of_nat nd)
  then Ok (Z.to_nat (if Z.ltb axis 0 then axis + Z.of_nat nd else axis)) else Err ValueError.

(* row i of every array in turn, for each of the p rows; the arrays' rows have the given widths *)
Definition interleave (p : nat) (rows : list (nat * list T)) : list T :=
  flat_map (fun i => flat_map (fun wd => slice (snd wd) (i * fst wd) (i * fst wd + fst wd)) rows) (seq 0 p).

(* jnp.stack(arrays, axis) *)
Definition stack_axis (axis : Z) (l : list (arr T)) : result (arr T) :=
  match l with
  | [] => Err ValueError
  | a :: _ =>
      let s := a_shape a in
      k <- norm_axis (S (List.length s)) axis ;;
      if forallb (fun b => shape_eqb (a_shape b) s) l
      then Ok (mkArr (firstn k s ++ List.length l :: skipn k s)
                     (interleave (size (firstn k s)) (map (fun b => (size (skipn k s), a_data b)) l)))
      else Err ValueError
  end.

(* jnp.concatenate(arrays, axis) *)
Definition same_but (k : nat) (s s' : list nat) : bool :=
  shape_eqb (firstn k s) (firstn k s') && shape_eqb (skipn (S k) s) (skipn (S k) s') && Nat.eqb (List.length s) (List.length s').
Definition concat_axis (axis : Z) (l : list (arr T)) : result (arr T) :=
  match l with
  | [] => Err ValueError
  | a :: _ =>
      let s := a_shape a in
      match s with
      | [] => Err ValueError
      | _ =>
          k <- norm_axis (List.length s) axis ;;
          if forallb (fun b => same_but k (a_shape b) s) l
          then Ok (mkArr (firstn k s ++ fold_right Nat.add 0 (map (fun b => nth k (a_shape b) 0) l) :: skipn (S k) s)
                         (interleave (size (firstn k s)) (map (fun b => (size (skipn k (a_shape b)), a_data b)) l)))
          else Err TypeError
      end
  end.

(* jax.tree_map(lambda *arrays: op(arrays), *ts), h being the first of the trees *)
Fixpoint tree_map_many (op : list (arr T) -> result (arr T)) (h : pytree T) (ts : list (pytree T)) : result (pytree T) :=
  match h with
  | Leaf _ => l <- traverse as_leaf ts ;; a <- op l ;; Ok (Leaf a)
  | Node g cs =>
      css <- traverse (as_node g (List.length cs)) ts ;;
      r <- (fix go (cs : list (pytree T)) (css : list (list (pytree T))) : result (list (pytree T)) :=
              match cs with
              | [] => Ok []
              | c :: cs' => x <- tree_map_many op c (map (hd c) css) ;;
                            xs <- go cs' (map (@tl _) css) ;; Ok (x :: xs)
              end) cs css ;;
      Ok (Node g r)
  end.
Definition tree_map_star (op : list (arr T) -> result (arr T)) (ts : list (pytree T)) : result (pytree T) :=
  match ts with [] => Err TypeError | h :: _ => tree_map_many op h ts end.

(* utils.py:13-16 *)
Definition pytree_stack (axis : Z) (ts : list (pytree T)) : result (pytree T) := tree_map_star (stack_axis axis) ts.
(* :19-22 *)
Definition pytree_concatenate (axis : Z) (ts : list (pytree T)) : result (pytree T) := tree_map_star (concat_axis axis) ts.
End Arrays.

(* :25-33 stopwatch.  A block of code makes readings of the clock, prints, and returns or raises;
   [clock n] is what the n-th call of time.time() returns *)
Inductive printed (T : Type) := Rule | Running (label : string) | Seconds (t : T) | Text (s : string).
Arguments Rule {T}. Arguments Running {T}. Arguments Seconds {T}. Arguments Text {T}.
Definition block (T A : Type) := nat -> result A * list (printed T) * nat.   (* next clock reading before, after *)
Definition stopwatch {T A} {N : Num T} (clock : nat -> T) (label : string) (b : block T A) : block T A := fun n =>
  let '(r, out, m) := b (S n) in
  match r with
  | Ok _ => (r, [Rule; Running label] ++ out ++ [Seconds (nsub (clock m) (clock n)); Rule], S m)
  | Err _ => (r, [Rule; Running label] ++ out, m)      (* no try/finally around the yield *)
  end.
