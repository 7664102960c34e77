(* Pose graphs: the variables of jaxfg/geometry/_lie_variables.py and the factors of
   jaxfg/geometry/_factors.py as instances of the variable and factor model. *)
From Coq Require Import List Arith Bool.
From Verif Require Import Num Py Arr MLayout MAssign MNoise MSparse MFactor MLie.
Import ListNotations.

Section Model.
Context {T : Type} {N : Num T}.

(* get_group_type() of each variable class, _lie_variables.py:16-21, 60-83.  A jaxlie group
   object is its parameter vector; jaxlie never validates or normalises it, so the
   operations are functions of arbitrary parameter vectors. *)
Variable groups : vty -> lie_ops T (list T).

(* a jaxlie object: a pytree dataclass with one array leaf; its class is the tag *)
Definition group_value (t : vty) (x : list T) : pytree T := Node t [Leaf (mkArr [length x] x)].
Definition params (x : pytree T) : list T := ravel x.

(* _lie_variables.py:27-45: default value, tangent_dim, retraction *)
Definition lie_class : cenv (T := T) := fun t =>
  mkVclass (group_value t (lie_default (groups t))) (Some (lg_dim (groups t)))
           (Some (fun x d => Ok (group_value t (lie_retract (groups t) (params x) d)))).

(* factor class 0: PriorFactor with mu, _factors.py:21-60;
   factor class 1: BetweenFactor with T_a_b, _factors.py:71-124 *)
Definition pose_residual (fd : fdata T) (vals : list (pytree T)) : list T :=
  match fd_cls fd, fd_types fd, fd_params fd, vals with
  | 0, [t], [mu], [x] => prior_residual (groups t) (params mu) (params x)
  | 1, [t; _], [Tab], [a; b] => between_residual (groups t) (params Tab) (params a) (params b)
  | _, _, _, _ => []
  end.
Definition pose_jacobians (fd : fdata T) (vals : list (pytree T)) : list (list (list T)) :=
  match fd_cls fd, fd_types fd, fd_params fd, vals with
  | 0, [t], [mu], [x] => prior_jacobians (groups t) (params mu) (params x)
  | 1, [t; _], [Tab], [a; b] => between_jacobians (groups t) (params Tab) (params a) (params b)
  | _, _, _, _ => []
  end.
Definition pose_env : env T := mkEnv lie_class pose_residual pose_jacobians.

(* PriorFactor.make, _factors.py:32-42 *)
Definition prior_make (v : var) (mu : pytree T) (n : noise T) : factor T := mkFactor 0 [v] n [mu].
(* BetweenFactor.make, _factors.py:79-97, with its two assertions *)
Definition between_make (va vb : var) (Tab : pytree T) (n : noise T) : result (factor T) :=
  _ <- assert_ (Nat.eqb (v_ty va) (v_ty vb)) ;;
  _ <- assert_ (match Tab with Node tag _ => Nat.eqb (v_ty va) tag | Leaf _ => false end) ;;
  Ok (mkFactor 1 [va; vb] n [Tab]).
End Model.
