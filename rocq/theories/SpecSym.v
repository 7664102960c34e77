(* Specification vocabulary for symmetries of a problem. *)
From Coq Require Import List Arith Bool ZArith.
From Verif Require Import Num Py Arr MLayout MAssign MNoise MSparse MFactor MGraph MLinear MSolver SpecLayout SpecTree SpecAssign SpecGraph SpecSparse SpecSolver SpecOrder SpecInv.
Import ListNotations.

Section Spec.
Context {T : Type} {N : Num T}.

(* two valuations of the variables of fs, legal and related by S *)
Definition related_values (E : env T) (fs : list (factor T)) (S : var -> pytree T -> pytree T -> Prop) (val val' : var -> pytree T) : Prop :=
  forall v, In v (mentioned fs) -> value_ok (e_cls E (v_ty v)) (val v) /\ value_ok (e_cls E (v_ty v)) (val' v) /\ S v (val v) (val' v).

(* [mv] moves every factor of fs (same variables, same noise, same kind of factor) and [S]
   relates values before and after the move: residuals and Jacobians of related values are
   equal, and retracting related values by the same tangent vector gives related values *)
Record symmetry (E : env T) (fs : list (factor T)) (mv : factor T -> factor T) (S : var -> pytree T -> pytree T -> Prop) : Prop := mkSym {
  sy_vars : forall f, In f fs -> f_vars (mv f) = f_vars f;
  sy_noise : forall f, In f fs -> f_noise (mv f) = f_noise f;
  sy_kind : forall f, In f fs -> f_cls (mv f) = f_cls f /\ Forall2 same_shape (f_params f) (f_params (mv f)) /\ Forall tree_ok (f_params (mv f));
  sy_residual : forall f val val', In f fs -> related_values E fs S val val' -> residual_at E val' (mv f) = residual_at E val f;
  sy_jacobian : forall f val val', In f fs -> related_values E fs S val val' -> jacobians_at E val' (mv f) = jacobians_at E val f;
  sy_retract : forall v x x' d y y', In v (mentioned fs) -> value_ok (e_cls E (v_ty v)) x -> value_ok (e_cls E (v_ty v)) x' -> S v x x' ->
    length d = vldim (e_cls E) v -> retract (e_cls E (v_ty v)) x d = Ok y -> retract (e_cls E (v_ty v)) x' d = Ok y' -> S v y y' }.

(* two calls with related outcomes *)
Definition related_outcome (E : env T) (fs : list (factor T)) (S : var -> pytree T -> pytree T -> Prop) (o o' : option (result (assign T))) : Prop :=
  match o, o' with
  | None, None => True
  | Some (Err e), Some (Err e') => e = e'
  | Some (Ok a), Some (Ok a') => exists val val', assigns E fs a val /\ assigns E fs a' val' /\ related_values E fs S val val'
  | _, _ => False
  end.

(* settings under which no termination test looks at the values of the variables *)
Definition value_free (cfg : term_cfg T) : Prop :=
  (max_iterations cfg - 1 <= gradient_start cfg)%Z /\
  forall d x : list T, nltb (vnorm (map nabs d)) (nmul (nadd (vnorm x) (parameter_tolerance cfg)) (parameter_tolerance cfg)) = false.
Inductive value_free_solver (E : env T) (lin : linear_solver (T := T)) : (nat -> graph T -> assign T -> option (result (assign T))) -> Prop :=
| vf_gn cfg : value_free cfg -> value_free_solver E lin (fun fuel => gn_solve E fuel cfg lin)
| vf_lm cfg : value_free (lm_term cfg) -> value_free_solver E lin (fun fuel => lm_solve E fuel cfg lin)
| vf_dl cfg : value_free (dl_term cfg) -> value_free_solver E lin (fun fuel => dl_solve E fuel cfg lin).
End Spec.
