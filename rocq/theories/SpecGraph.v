(* Specification vocabulary for factors and graphs. *)
From Coq Require Import List Arith Bool.
From Verif Require Import Num Py Arr MLayout MAssign MNoise MSparse MFactor SpecLayout SpecTree SpecAssign.
Import ListNotations.

(* a noise model with the documented array shapes: a square matrix, a diagonal vector, a
   scalar Huber delta around such a model *)
Fixpoint noise_ok {T} (n : noise T) : Prop :=
  match n with
  | Gaussian W => arr_ok W = true /\ exists k, a_shape W = [k; k]
  | DiagGaussian d => arr_ok d = true /\ exists k, a_shape d = [k]
  | Huber w delta => noise_ok w /\ arr_ok delta = true /\ a_shape delta = []
  end.

(* a factor whose arrays have consistent shapes *)
Definition factor_ok {T} (f : factor T) : Prop := noise_ok (f_noise f) /\ Forall tree_ok (f_params f).

(* two factors that may be vmapped together: same class and static data, same variable
   types, same tree structure, same leaf shapes *)
Definition same_kind {T} (f g : factor T) : Prop :=
  f_cls f = f_cls g /\ map v_ty (f_vars f) = map v_ty (f_vars g) /\
  noise_structure (f_noise f) = noise_structure (f_noise g) /\
  map a_shape (noise_leaves (f_noise f)) = map a_shape (noise_leaves (f_noise g)) /\
  Forall2 same_shape (f_params f) (f_params g).

Section Spec.
Context {T : Type} {N : Num T}.
Variable E : env T.

(* the residual of one factor, evaluated on the values of its own variables *)
Definition residual_at (val : var -> pytree T) (f : factor T) : list T :=
  e_res E (anonymize f) (map val (f_vars f)).
(* ... whitened by its own noise model *)
Definition whitened_at (val : var -> pytree T) (f : factor T) : result (list T) :=
  whiten_residual (f_noise f) (residual_at val f).
(* its Jacobians, one matrix (list of rows) per variable *)
Definition jacobians_at (val : var -> pytree T) (f : factor T) : list (list (list T)) :=
  e_jac E (anonymize f) (map val (f_vars f)).

(* the residual function returns as many entries as the noise model announces *)
Definition residual_shape_ok (val : var -> pytree T) (f : factor T) : Prop :=
  length (residual_at val f) = residual_dim f.
(* one (residual_dim x local_dim) matrix per variable *)
Definition jacobian_shape_ok (val : var -> pytree T) (f : factor T) : Prop :=
  Forall2 (fun v J => length J = residual_dim f /\ Forall (fun row => length row = vldim (e_cls E) v) J)
          (f_vars f) (jacobians_at val f).

(* the variables mentioned by a list of factors, in order of first mention *)
Definition mentioned (fs : list (factor T)) : list var := firsts (flat_map f_vars fs).

(* [groups_of fs gs]: gs is fs cut into maximal classes of same_kind, classes ordered by
   first occurrence, input order inside a class *)
Inductive split_kind (f : factor T) : list (factor T) -> list (factor T) -> list (factor T) -> Prop :=
| split_nil : split_kind f [] [] []
| split_in g fs ins outs : same_kind f g -> split_kind f fs ins outs -> split_kind f (g :: fs) (g :: ins) outs
| split_out g fs ins outs : ~ same_kind f g -> split_kind f fs ins outs -> split_kind f (g :: fs) ins (g :: outs).
Inductive groups_of : list (factor T) -> list (list (factor T)) -> Prop :=
| groups_nil : groups_of [] []
| groups_cons f fs ins outs gs : split_kind f fs ins outs -> groups_of outs gs -> groups_of (f :: fs) ((f :: ins) :: gs).

(* the whitened Jacobians of one factor, one matrix per variable; rf is the factor's part of
   the residual vector *)
Definition whitened_jacobians_at (val : var -> pytree T) (f : factor T) (rf : list T) : result (list (list (list T))) :=
  traverse (fun J => whiten_jacobian (f_noise f) J rf) (jacobians_at val f).

(* an assignment (in any storage order) giving the variables of fs the values val *)
Definition assigns (fs : list (factor T)) (a : assign T) (val : var -> pytree T) : Prop :=
  exists vs, wf_assign (e_cls E) vs false a /\ (forall v, In v vs <-> In v (mentioned fs)) /\
    forall v, In v vs -> get_value (e_cls E) a v = Ok (val v).
End Spec.

(* the stack s holds the factors gfs, in this order *)
Definition stack_holds {T} (gfs : list (factor T)) (s : fstack T) : Prop :=
  fs_num s = length gfs /\ forall i f, nth_error gfs i = Some f -> fd_index i (fs_factor s) = anonymize f.
