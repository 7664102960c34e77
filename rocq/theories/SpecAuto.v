(* Specification vocabulary for automatically composed Jacobians. *)
From Coq Require Import List Arith Bool Reals.
From Verif Require Import Num NumR Py Arr MLayout MAssign MNoise MFactor MAuto SpecTree SpecAssign SpecGraph SpecDeriv.
Import ListNotations.

Section Spec.
Context {T : Type} {N : Num T}.

(* entry [r, k] of arrays with axes (residual, leaf...), k counting the scalars of all leaves *)
Fixpoint partial (ls : list (arr T)) (r k : nat) : T :=
  match ls with
  | [] => n0
  | a :: rest => let n := size (tl (a_shape a)) in
                 if k <? n then nth (r * n + k) (a_data a) n0 else partial rest r (k - n)
  end.
(* entry [k, c] of arrays with axes (leaf..., tangent) *)
Definition along (ld : nat) (K : list (arr T)) (k c : nat) : T := nth (k * ld + c) (concat (map a_data K)) n0.

(* the arrays jacfwd returns have the documented axes *)
Definition residual_arrays (rd : nat) (x D : pytree T) : Prop :=
  tree_ok D /\ map a_shape (leaves D) = map (fun a => rd :: a_shape a) (leaves x).
Definition retract_arrays (ld : nat) (x : pytree T) (K : list (arr T)) : Prop :=
  Forall (fun a => arr_ok a = true) K /\ map a_shape K = map (fun a => a_shape a ++ [ld]) (leaves x).

(* sum over the scalars of the value of (residual by scalar) times (scalar by tangent) *)
Definition composed (n : nat) (D : pytree T) (ld : nat) (K : list (arr T)) (r c : nat) : T :=
  vsum (map (fun k => nmul (partial (leaves D) r k) (along ld K k c)) (seq 0 n)).

(* legal arguments of the default compute_residual_jacobians *)
Definition auto_ok (E : env T) (AD : autodiff T) (fd : fdata T) (vals : list (pytree T)) : Prop :=
  0 < noise_dim (fd_noise fd) /\
  Forall2 (fun t x => value_ok (e_cls E t) x /\ leaves x <> [] /\ 0 < local_dim (e_cls E t) /\
                      retract_arrays (local_dim (e_cls E t)) x (ad_retract AD t x)) (fd_types fd) vals /\
  Forall2 (residual_arrays (noise_dim (fd_noise fd))) vals (ad_residual AD fd vals).
End Spec.

Local Open Scope R_scope.

(* all scalars of a tuple of values *)
Definition flat (vals : list (pytree R)) : list R := concat (map ravel vals).

(* F (on the legal tuples) is differentiable at vals with the partial derivatives in D *)
Definition residual_derivative (legal : list (pytree R) -> Prop) (F : list (pytree R) -> list R) (rd : nat)
    (vals D : list (pytree R)) : Prop :=
  (forall vals', legal vals' -> length (F vals') = rd) /\
  forall eps, 0 < eps -> exists delta, 0 < delta /\
    forall vals', legal vals' -> (forall k, Rabs (nth k (flat vals') 0 - nth k (flat vals) 0) < delta) ->
    forall r, (r < rd)%nat ->
      Rabs (nth r (F vals') 0 - nth r (F vals) 0
            - vsum (map (fun k => partial (flat_map leaves D) r k * (nth k (flat vals') 0 - nth k (flat vals) 0)) (seq 0 (length (flat vals)))))
      <= eps * vsum (map (fun k => Rabs (nth k (flat vals') 0 - nth k (flat vals) 0)) (seq 0 (length (flat vals)))).

(* retraction by 0 is x, and K holds the derivative of the retraction at 0 *)
Definition retract_derivative (c : vclass R) (x : pytree R) (K : list (arr R)) : Prop :=
  retract c x (vzero (local_dim c)) = Ok x /\
  forall d xt, length d = local_dim c -> (forall t, retract c x (vscale t d) = Ok (xt t) /\ value_ok c (xt t)) ->
    vderiv (fun t => ravel (xt t))
      (map (fun k => vsum (map (fun c' => along (local_dim c) K k c' * nth c' d 0) (seq 0 (local_dim c)))) (seq 0 (length (ravel x)))).
