(* Model of evaluating one factor by hand: get_variable_values_from_assignments,
   jaxfg/core/_factor_base.py:102-111, followed by compute_residual_vector and
   whiten_residual_vector of that factor. *)
From Coq Require Import List Arith Bool ZArith.
From Verif Require Import Num Py Arr MLayout MAssign MNoise MFactor MMisc.
Import ListNotations.

Section Model.
Context {T : Type} {N : Num T}.
Variable E : env T.
Variable isinstance : pytree T -> nat -> bool.
Variable hint_of : nat -> hint.            (* the hint of each class's compute_residual_vector *)

Definition tuple_values {V} (t : vtuple V) : list V := match t with Plain vs => vs | Named _ vs => vs end.

(* :103-111; get_value is called variable by variable, then the tuple is built *)
Definition get_variable_values_from_assignments (f : factor T) (a : assign T) : result (vtuple (pytree T)) :=
  vs <- traverse (get_value (e_cls E) a) (f_vars f) ;;
  build_variable_value_tuple isinstance (hint_of (f_cls f)) vs.

(* f.noise_model.whiten_residual_vector(f.compute_residual_vector(values)); residual functions
   read the fields of the tuple by position *)
Definition whitened_by_hand (f : factor T) (a : assign T) : result (list T) :=
  t <- get_variable_values_from_assignments f a ;;
  whiten_residual (f_noise f) (e_res E (anonymize f) (tuple_values t)).
End Model.
