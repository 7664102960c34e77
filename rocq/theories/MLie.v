(* Model of jaxfg/geometry/_factors.py and jaxfg/geometry/_lie_variables.py.
   jaxlie is a library: a matrix Lie group is the record of the operations it offers. *)
From Coq Require Import List Arith Bool.
From Verif Require Import Num Py.
Import ListNotations.

Record lie_ops (T G : Type) := mkLie {
  lg_one : G;                          (* identity() *)
  lg_mul : G -> G -> G;                (* @ *)
  lg_inv : G -> G;                     (* inverse() *)
  lg_exp : list T -> G;                (* exp(tangent) *)
  lg_log : G -> list T;                (* log() *)
  lg_adj : G -> list (list T);         (* adjoint() *)
  lg_dim : nat                         (* tangent_dim *)
}.
Arguments mkLie {T G}. Arguments lg_one {T G}. Arguments lg_mul {T G}. Arguments lg_inv {T G}.
Arguments lg_exp {T G}. Arguments lg_log {T G}. Arguments lg_adj {T G}. Arguments lg_dim {T G}.

Section Model.
Context {T G : Type} {N : Num T}.
Variable L : lie_ops T G.

(* jaxlie.manifold.rplus(x, delta) = x @ exp(delta) *)
Definition rplus (x : G) (d : list T) : G := lg_mul L x (lg_exp L d).
(* jaxlie.manifold.rminus(a, b) = (a.inverse() @ b).log() *)
Definition rminus (a b : G) : list T := lg_log L (lg_mul L (lg_inv L a) b).

(* _lie_variables.py:27-31, 41-45 *)
Definition lie_default : G := lg_one L.
Definition lie_retract (x : G) (d : list T) : G := rplus x d.

Definition eye_row (n i : nat) (x : T) : list T := map (fun j => if Nat.eqb i j then x else n0) (seq 0 n).
Definition neg_eye (n : nat) : list (list T) := map (fun i => eye_row n i (nneg n1)) (seq 0 n).

(* _factors.py:45-51 *)
Definition prior_residual (mu x : G) : list T := rminus x mu.
(* _factors.py:54-60 *)
Definition prior_jacobians (mu x : G) : list (list (list T)) := [neg_eye (lg_dim L)].
(* _factors.py:99-106 *)
Definition between_residual (Tab a b : G) : list T := rminus (lg_mul L (lg_inv L a) b) Tab.
(* _factors.py:108-124 *)
Definition between_jacobians (Tab a b : G) : list (list (list T)) :=
  [lg_adj L (lg_inv L (lg_mul L (lg_inv L a) b)); neg_eye (lg_dim L)].
End Model.
