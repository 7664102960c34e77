(* Specification vocabulary for invariants of the variable values. *)
From Coq Require Import List Arith Bool.
From Verif Require Import Num Py Arr MLayout MAssign MNoise MSparse MFactor MGraph MLinear MSolver SpecLayout SpecTree SpecAssign SpecGraph SpecSparse SpecOrder.
Import ListNotations.

Section Spec.
Context {T : Type} {N : Num T}.

(* the retractions of the variables of fs keep Q, for every tangent vector *)
Definition preserved (E : env T) (fs : list (factor T)) (Q : var -> pytree T -> Prop) : Prop :=
  forall v x d, In v (mentioned fs) -> value_ok (e_cls E (v_ty v)) x -> Q v x -> length d = vldim (e_cls E) v ->
    exists y, retract (e_cls E (v_ty v)) x d = Ok y /\ value_ok (e_cls E (v_ty v)) y /\ Q v y.

(* every variable of vs has a value in a, and it satisfies Q *)
Definition all_values (E : env T) (Q : var -> pytree T -> Prop) (vs : list var) (a : assign T) : Prop :=
  forall v, In v vs -> exists x, get_value (e_cls E) a v = Ok x /\ Q v x.

(* a linear solver that returns one entry per column *)
Definition sized (lin : linear_solver (T := T)) : Prop :=
  forall A b lambd i x, length b = snd (m_shape A) -> lin A b lambd i = Ok x -> length x = snd (m_shape A).

(* a linear solver that does not raise on well-formed input and returns one entry per column *)
Definition total_solver (lin : linear_solver (T := T)) : Prop :=
  forall A b lambd i, coo_ok A -> length b = snd (m_shape A) -> exists x, lin A b lambd i = Ok x /\ length x = snd (m_shape A).

(* a well-formed least-squares problem: user code returns arrays of the documented shapes,
   there is at least one residual entry and at least one parameter *)
Record well_posed (E : env T) (fs : list (factor T)) : Prop := mkPosed {
  wp_classes : classes_ok (e_cls E);
  wp_factors : forall f, In f fs -> factor_ok f;
  wp_shaped : well_shaped E fs;
  wp_residual : exists f, In f fs /\ residual_dim f <> 0;
  wp_param : exists v, In v (mentioned fs) /\ vpdim (e_cls E) v <> 0 }.
End Spec.
