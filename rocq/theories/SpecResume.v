(* Specification vocabulary for stopping a solver and starting it again from the result. *)
From Coq Require Import List Arith Bool ZArith.
From Verif Require Import Num Py Arr MLayout MAssign MNoise MSparse MFactor MGraph MLinear MSolver SpecLayout SpecTree SpecAssign SpecGraph.
Import ListNotations.

Section Spec.
Context {T : Type} {N : Num T}.

(* the linear solver does not look at the number of the iteration *)
Definition iteration_blind (lin : linear_solver (T := T)) : Prop := forall A b l i j, lin A b l i = lin A b l j.

(* the same settings with another limit on the number of iterations, and, for the
   trust-region solvers, another initial damping or radius *)
Definition term_with (n : Z) (cfg : term_cfg T) : term_cfg T :=
  mkTerm n (cost_tolerance cfg) (gradient_tolerance cfg) (gradient_start cfg) (parameter_tolerance cfg).
Definition lm_with (n : Z) (x : T) (cfg : lm_cfg T) : lm_cfg T :=
  mkLm (term_with n (lm_term cfg)) x (lambda_factor cfg) (lambda_min cfg) (lambda_max cfg) (lm_quality_min cfg).
Definition dl_with (n : Z) (x : T) (cfg : dl_cfg T) : dl_cfg T :=
  mkDl (term_with n (dl_term cfg)) x (dl_quality_min cfg).

(* the three convergence-controlled solvers as functions of the limit n and of the initial
   damping or radius x (which Gauss-Newton ignores): loop body, the x that is meant when
   nothing else is said, solve(), first iteration in which the gradient is tested *)
Inductive restartable (E : env T) (lin : linear_solver (T := T)) : (Z -> graph T -> sstate T -> result (sstate T)) -> T ->
    (Z -> T -> nat -> graph T -> assign T -> option (result (assign T))) -> Z -> Prop :=
| restart_gn cfg : restartable E lin (fun n => gn_step E (term_with n cfg) lin) n0
    (fun n _ fuel => gn_solve E fuel (term_with n cfg) lin) (gradient_start cfg)
| restart_lm cfg : restartable E lin (fun n => lm_step E (lm_with n (lambda_initial cfg) cfg) lin) (lambda_initial cfg)
    (fun n x fuel => lm_solve E fuel (lm_with n x cfg) lin) (gradient_start (lm_term cfg))
| restart_dl cfg : restartable E lin (fun n => dl_step E (dl_with n (radius_initial cfg) cfg) lin) (radius_initial cfg)
    (fun n x fuel => dl_solve E fuel (dl_with n x cfg) lin) (gradient_start (dl_term cfg)).
(* well-formed input on which a first call [one] returns b, a second call [two] from b returns r,
   and a single call [whole] returns r', which is not r *)
Definition differs (E : env T) (fs : list (factor T)) (g : graph T) (vs : list var) (init b r r' : assign T)
    (one two whole : graph T -> assign T -> option (result (assign T))) : Prop :=
  classes_ok (e_cls E) /\ (forall f, In f fs -> factor_ok f) /\ graph_make E fs = Ok g /\ wf_assign (e_cls E) vs false init /\
  one g init = Some (Ok b) /\ two g b = Some (Ok r) /\ whole g init = Some (Ok r') /\ as_storage r <> as_storage r'.
End Spec.
