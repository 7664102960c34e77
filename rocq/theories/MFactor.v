(* Model of jaxfg/core/_factor_base.py (data part) and jaxfg/core/_factor_stack.py *)
From Coq Require Import List Arith Bool.
From Verif Require Import Num Py Arr MLayout MAssign MNoise MSparse.
Import ListNotations.

(* An instance of a FactorBase subclass (a pytree dataclass), _factor_base.py:23-36.
   f_cls: the class together with all static fields except the variables;
   f_params: the remaining (pytree) fields. *)
Record factor (T : Type) := mkFactor {
  f_cls : nat; f_vars : list var; f_noise : noise T; f_params : list (pytree T) }.
Arguments mkFactor {T}. Arguments f_cls {T}. Arguments f_vars {T}.
Arguments f_noise {T}. Arguments f_params {T}.

(* A factor with anonymised variables: canonical instances are determined by the
   variable types (see MMisc.v for canonical_instance itself). *)
Record fdata (T : Type) := mkFdata {
  fd_cls : nat; fd_types : list vty; fd_noise : noise T; fd_params : list (pytree T) }.
Arguments mkFdata {T}. Arguments fd_cls {T}. Arguments fd_types {T}.
Arguments fd_noise {T}. Arguments fd_params {T}.

(* User code: variable classes, compute_residual_vector and compute_residual_jacobians of
   every factor class.  [self] is seen with anonymised variables because both functions
   are only ever called on stacked factors (_factor_stack.py:180,205). *)
Record env (T : Type) := mkEnv {
  e_cls : cenv (T := T);
  e_res : fdata T -> list (pytree T) -> list T;
  e_jac : fdata T -> list (pytree T) -> list (list (list T)) }.
Arguments mkEnv {T}. Arguments e_cls {T}. Arguments e_res {T}. Arguments e_jac {T}.

Section Model.
Context {T : Type} {N : Num T}.
Variable E : env T.
Let C := e_cls E.

(* _factor_base.py:168-176 anonymize_variables *)
Definition anonymize (f : factor T) : fdata T :=
  mkFdata (f_cls f) (map v_ty (f_vars f)) (f_noise f) (f_params f).

(* _factor_base.py:97-100 get_residual_dim *)
Definition residual_dim (f : factor T) : nat := noise_dim (f_noise f).

(* _factor_stack.py:54-61: jax.tree_map(jnp.stack, *anonymised factors); raises unless all
   treedefs agree.  Class, variable types (static field) and containers make the treedef. *)
Definition fd_stack (fds : list (fdata T)) : result (fdata T) :=
  match fds with
  | [] => Err TypeError
  | h :: _ =>
      if forallb (fun fd => Nat.eqb (fd_cls fd) (fd_cls h)
                            && list_eqb Nat.eqb (fd_types fd) (fd_types h)) fds
      then
        n <- noise_stack (fd_noise h) (map fd_noise fds) ;;
        p <- tree_stack (Node 0 (fd_params h)) (map (fun fd => Node 0 (fd_params fd)) fds) ;;
        match p with
        | Node _ ps => Ok (mkFdata (fd_cls h) (fd_types h) n ps)
        | Leaf _ => Err ValueError
        end
      else Err ValueError
  end.

(* the slice of a stacked factor that vmap passes to the mapped method *)
Definition fd_index (i : nat) (fd : fdata T) : fdata T :=
  mkFdata (fd_cls fd) (fd_types fd) (noise_index i (fd_noise fd)) (map (tree_index i) (fd_params fd)).

(* _factor_stack.py:16-27 *)
Record fstack := mkStack {
  fs_num : nat; fs_factor : fdata T; fs_idx : list (list (list nat)); fs_layout : layout }.

(* lists[i].append(x) *)
Fixpoint append_at {A} (i : nat) (x : A) (cols : list (list A)) : result (list (list A)) :=
  match cols, i with
  | [], _ => Err IndexError
  | c :: r, O => Ok ((c ++ [x]) :: r)
  | c :: r, S i' => r' <- append_at i' x r ;; Ok (c :: r')
  end.

Definition enumerate {A} (l : list A) : list (nat * A) := combine (seq 0 (length l)) l.

(* _factor_stack.py:68-75, body of the inner loop.  isinstance is modelled as equality of
   classes (variable classes are not subclassed further). *)
Definition value_index_step (h : factor T) (L : layout) (cols : list (list (list nat)))
    (iv : nat * var) : result (list (list (list nat))) :=
  let '(i, v) := iv in
  match nth_error (f_vars h) i with
  | None => Err IndexError
  | Some v0 =>
      _ <- assert_ (Nat.eqb (v_ty v) (v_ty v0)) ;;
      pos <- dict_getE (l_index L) v ;;
      append_at i (arange pos (vpdim C v)) cols
  end.

(* _factor_stack.py:43-88 make (use_onp only selects the array library) *)
Definition stack_make (fs : list (factor T)) (L : layout) : result fstack :=
  fd <- fd_stack (map anonymize fs) ;;
  match fs with
  | [] => Err TypeError
  | h :: _ =>
      idx <- foldM (fun cols f => foldM (value_index_step h L) (enumerate (f_vars f)) cols)
                   fs (repeat [] (length (fd_types fd))) ;;
      _ <- assert_ (Nat.eqb (length idx) (length (fd_types fd))) ;;   (* __post_init__, :29-31 *)
      Ok (mkStack (length fs) fd idx L)
  end.

(* _factor_stack.py:107-116 *)
Definition local_index_step (L : layout) (cols : list (list (list nat))) (iv : nat * var)
    : result (list (list (list nat))) :=
  let '(i, v) := iv in
  pos <- dict_getE (l_index L) v ;;
  append_at i (arange pos (vldim C v)) cols.

(* _factor_stack.py:130-157, one variable slot: C-order flattening of the
   (num_factors, residual_dim, variable_dim) broadcasts *)
Definition slot_coords (num rd vd off : nat) (idx : list (list nat)) : result coords :=
  if forallb (fun row => Nat.eqb (length row) vd) idx
  then Ok (mkCoords
    (flat_map (fun n => flat_map (fun r => repeat (n * rd + r + off) vd) (seq 0 rd)) (seq 0 num))
    (flat_map (fun row => flat_map (fun _ => row) (seq 0 rd)) idx))
  else Err ValueError.

(* _factor_stack.py:90-159 compute_jacobian_coords *)
Definition jacobian_coords (fs : list (factor T)) (L : layout) (off : nat) : result (list coords) :=
  match fs with
  | [] => Err IndexError
  | h :: _ =>
      let types := map v_ty (f_vars h) in
      idx <- foldM (fun cols f => foldM (local_index_step L) (enumerate (f_vars f)) cols)
                   fs (repeat [] (length types)) ;;
      traverse (fun ti => slot_coords (length fs) (residual_dim h) (local_dim (C (fst ti))) off (snd ti))
               (combine types idx)
  end.

(* _factor_stack.py:161-162 get_residual_dim *)
Definition stack_residual_dim (s : fstack) : nat := noise_dim (fd_noise (fs_factor s)) * fs_num s.

(* _factor_stack.py:172-176, 197-201: gathered and unflattened inputs, one list of rows per slot *)
Definition stack_values (s : fstack) (a : assign T) : result (list (list (pytree T))) :=
  traverse (fun ti => traverse (fun idx => unflatten (C (fst ti)) (gather n0 (as_storage a) idx)) (snd ti))
           (combine (fd_types (fs_factor s)) (fs_idx s)).

(* the tuple of values passed to the n-th mapped call *)
Definition row_values (n : nat) (vals : list (list (pytree T))) : list (pytree T) :=
  map (fun col => nth n col (Leaf (mkArr [] []))) vals.

(* _factor_stack.py:164-184 compute_residual_vector, one row per factor *)
Definition stack_residuals (s : fstack) (a : assign T) : result (list (list T)) :=
  _ <- assert_ (layout_eqb (as_layout a) (fs_layout s)) ;;
  vals <- stack_values s a ;;
  Ok (map (fun n => e_res E (fd_index n (fs_factor s)) (row_values n vals)) (seq 0 (fs_num s))).

(* _factor_stack.py:186-209 compute_residual_jacobian: one (N, rd, ld) array per slot; the
   number of slots is the length of the tuple the traced function returns *)
Definition stack_jacobians (s : fstack) (a : assign T) : result (list (list (list (list T)))) :=
  _ <- assert_ (layout_eqb (as_layout a) (fs_layout s)) ;;
  vals <- stack_values s a ;;
  let rows := map (fun n => e_jac E (fd_index n (fs_factor s)) (row_values n vals)) (seq 0 (fs_num s)) in
  Ok (map (fun i => map (fun js => nth i js []) rows)
          (seq 0 (length (hd [] rows)))).
End Model.
Arguments fstack : clear implicits.
