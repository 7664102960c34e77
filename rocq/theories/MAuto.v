(* Model of the default Jacobians, jaxfg/core/_factor_base.py:51-93 and
   jaxfg/core/_variables.py:54-69.  jax.jacfwd itself is not modelled: its results are data. *)
From Coq Require Import List Arith Bool.
From Verif Require Import Num Py Arr MLayout MAssign MNoise MSparse MFactor.
Import ListNotations.

(* ad_residual: jax.jacfwd(self.compute_residual_vector)(variable_values), a tuple with the
   containers of variable_values, an array of shape (residual, *leaf shape) per leaf (:75);
   ad_retract: manifold_retract_jacobian(x) of a variable class, one array of shape
   ( *leaf shape, local dim ) per leaf of x (_variables.py:54-69, or the class's override) *)
Record autodiff (T : Type) := mkAuto {
  ad_residual : fdata T -> list (pytree T) -> list (pytree T);
  ad_retract : vty -> pytree T -> list (arr T) }.
Arguments mkAuto {T}. Arguments ad_residual {T}. Arguments ad_retract {T}.

Section Model.
Context {T : Type} {N : Num T}.
Variable E : env T.
Variable AD : autodiff T.
Let C := e_cls E.

(* leaf.reshape((rows, -1)); rows = 0 is treated as an error (numpy rejects it, JAX versions differ) *)
Definition reshape_rows (rows : nat) (a : arr T) : result (list (list T)) :=
  if Nat.eqb rows 0 then Err ValueError else reshape2 rows (length (a_data a) / rows) (a_data a).
(* leaf.reshape((-1, cols)) *)
Definition reshape_cols (cols : nat) (a : arr T) : result (list (list T)) :=
  if Nat.eqb cols 0 then Err ValueError else reshape2 (length (a_data a) / cols) cols (a_data a).

(* jnp.concatenate(ms, axis=-1) of matrices *)
Definition hconcat (ms : list (list (list T))) : result (list (list T)) :=
  match ms with
  | [] => Err ValueError
  | m :: rest => if forallb (fun b => Nat.eqb (length b) (length m)) rest
                 then Ok (fold_left (zipw (@app T)) rest m) else Err TypeError
  end.

(* jnp.dot(A, B), B having c columns *)
Definition dot (c : nat) (A B : list (list T)) : result (list (list T)) :=
  if forallb (fun row => Nat.eqb (length row) (length B)) A then Ok (mmul c A B) else Err TypeError.

(* :73-79, one element of the first tuple *)
Definition residual_block (rd : nat) (tree : pytree T) : result (list (list T)) :=
  ms <- traverse (reshape_rows rd) (leaves tree) ;; hconcat ms.
(* :80-89, one element of the second tuple *)
Definition retract_block (ld : nat) (ls : list (arr T)) : result (list (list T)) :=
  ms <- traverse (reshape_cols ld) ls ;; concatenate ms.

(* :51-93 compute_residual_jacobians *)
Definition default_jacobians (fd : fdata T) (vals : list (pytree T)) : result (list (list (list T))) :=
  _ <- assert_ (Nat.eqb (length (fd_types fd)) (length vals)) ;;
  A <- traverse (residual_block (noise_dim (fd_noise fd))) (ad_residual AD fd vals) ;;
  B <- traverse (fun tx => retract_block (local_dim (C (fst tx))) (ad_retract AD (fst tx) (snd tx)))
                (combine (fd_types fd) vals) ;;
  if Nat.eqb (length A) (length B)
  then traverse (fun tab => dot (local_dim (C (fst tab))) (fst (snd tab)) (snd (snd tab)))
                (combine (fd_types fd) (combine A B))
  else Err ValueError.
End Model.

(* a program whose factor classes do not override compute_residual_jacobians *)
Definition auto_env {T} {N : Num T} (C : cenv (T := T)) (res : fdata T -> list (pytree T) -> list T) (AD : autodiff T) : env T :=
  mkEnv C res (fun fd vals => match default_jacobians (mkEnv C res (fun _ _ => [])) AD fd vals with Ok J => J | Err _ => [] end).
