(* Model of jaxfg/noises/_gaussians.py and jaxfg/noises/_huber.py *)
From Coq Require Import List Arith Bool ZArith.
From Verif Require Import Num Py Arr.
Import ListNotations.

(* jaxfg/noises/_gaussians.py:11-14, 42-45; jaxfg/noises/_huber.py:9-21.
   Simplification: user-defined NoiseModelBase subclasses are not modelled. *)
Inductive noise (T : Type) :=
| Gaussian (W : arr T)             (* sqrt_precision_matrix *)
| DiagGaussian (d : arr T)         (* sqrt_precision_diagonal *)
| Huber (w : noise T) (delta : arr T).
Arguments Gaussian {T}. Arguments DiagGaussian {T}. Arguments Huber {T}.

Section Model.
Context {T : Type} {N : Num T}.

(* pytree view of a noise model (jdc.pytree_dataclass): tags 0, 1, 2 are the classes *)
Fixpoint noise_structure (n : noise T) : treedef :=
  match n with
  | Gaussian _ => TNode 0 [TLeaf]
  | DiagGaussian _ => TNode 1 [TLeaf]
  | Huber w _ => TNode 2 [noise_structure w; TLeaf]
  end.
Fixpoint noise_leaves (n : noise T) : list (arr T) :=
  match n with
  | Gaussian W => [W]
  | DiagGaussian d => [d]
  | Huber w delta => noise_leaves w ++ [delta]
  end.

(* jax.tree_map(jnp.stack, *noises): raises on different structures *)
Definition as_gaussian (n : noise T) : result (arr T) :=
  match n with Gaussian W => Ok W | _ => Err ValueError end.
Definition as_diag (n : noise T) : result (arr T) :=
  match n with DiagGaussian d => Ok d | _ => Err ValueError end.
Definition as_huber (n : noise T) : result (noise T * arr T) :=
  match n with Huber w d => Ok (w, d) | _ => Err ValueError end.
Fixpoint noise_stack (h : noise T) (ns : list (noise T)) : result (noise T) :=
  match h with
  | Gaussian _ => l <- traverse as_gaussian ns ;; a <- arr_stack l ;; Ok (Gaussian a)
  | DiagGaussian _ => l <- traverse as_diag ns ;; a <- arr_stack l ;; Ok (DiagGaussian a)
  | Huber w _ => l <- traverse as_huber ns ;;
                 w' <- noise_stack w (map fst l) ;;
                 a <- arr_stack (map snd l) ;; Ok (Huber w' a)
  end.
(* slice n along the stacking axis (what vmap passes) *)
Fixpoint noise_index (i : nat) (n : noise T) : noise T :=
  match n with
  | Gaussian W => Gaussian (arr_index i W)
  | DiagGaussian d => DiagGaussian (arr_index i d)
  | Huber w delta => Huber (noise_index i w) (arr_index i delta)
  end.

(* get_residual_dim: _gaussians.py:25-27, 55-57; _huber.py:23-25.  [shape[-1]] works on
   stacked and unstacked models alike.  Simplification: a rank-0 array (IndexError in
   Python) gives 0 here; excluded by the well-formedness guards. *)
Fixpoint noise_dim (n : noise T) : nat :=
  match n with
  | Gaussian W => last (a_shape W) 0
  | DiagGaussian d => last (a_shape d) 0
  | Huber w _ => noise_dim w
  end.

(* value of a scalar leaf *)
Definition scalar (a : arr T) : result T :=
  match a_shape a, a_data a with [], [x] => Ok x | _, _ => Err TypeError end.

Definition ncols (J : list (list T)) : nat := match J with [] => 0 | r :: _ => length r end.

(* whiten_residual_vector: _gaussians.py:29-31, 59-62; _huber.py:27-36 *)
Fixpoint whiten_residual (n : noise T) (r : list T) : result (list T) :=
  match n with
  | Gaussian W =>
      match a_shape W with
      | [m; k] => if Nat.eqb (length r) k then Ok (mvec (chunks m k (a_data W)) r) else Err ValueError
      | _ => Err ValueError
      end
  | DiagGaussian d =>
      _ <- assert_ (shape_eqb [length r] (a_shape d)) ;;
      Ok (vmul (a_data d) r)
  | Huber w delta =>
      r' <- whiten_residual w r ;;
      dl <- scalar delta ;;
      let nr := vnorm r' in
      Ok (if nltb nr dl then r' else map (fun x => nmul x (nsqrt (ndiv dl nr))) r')
  end.

(* whiten_jacobian: _gaussians.py:33-39, 64-76; _huber.py:38-51.  J is a list of rows. *)
Fixpoint whiten_jacobian (n : noise T) (J : list (list T)) (r : list T) : result (list (list T)) :=
  match n with
  | Gaussian W =>
      match a_shape W with
      | [m; k] => if Nat.eqb (length J) k then Ok (mmul (ncols J) (chunks m k (a_data W)) J) else Err ValueError
      | _ => Err ValueError
      end
  | DiagGaussian d =>
      _ <- assert_ (shape_eqb [length r] (a_shape d) && shape_eqb (a_shape d) [length J]) ;;
      Ok (zipw (fun x row => map (nmul x) row) (a_data d) J)
  | Huber w delta =>
      J' <- whiten_jacobian w J r ;;
      dl <- scalar delta ;;
      let nr := vnorm r in
      Ok (if nltb nr dl then J' else map (map (fun x => nmul x (nsqrt (ndiv dl nr)))) J')
  end.

(* DiagonalGaussian.make_from_covariance, _gaussians.py:47-53 *)
Definition diag_from_covariance (c : list T) : noise T :=
  DiagGaussian (mkArr [length c] (map (fun x => ndiv n1 (nsqrt x)) c)).

(* Gaussian.make_from_covariance, _gaussians.py:16-23.  jnp.linalg.cholesky and
   jnp.linalg.inv are library calls, passed in. *)
Definition gaussian_from_covariance (cholesky inv : list (list T) -> list (list T))
    (cov : list (list T)) : result (noise T) :=
  _ <- assert_ (forallb (fun row => Nat.eqb (length row) (length cov)) cov) ;;
  let W := inv (cholesky cov) in
  Ok (Gaussian (mkArr [length W; ncols W] (concat W))).
End Model.
