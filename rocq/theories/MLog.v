(* Model of what the solvers print: _hcb_print, jaxfg/solvers/_nonlinear_solver_base.py:106-124,
   and its calls.  hcb.id_tap prints each time the compiled program reaches it, in program
   order.  Exceptions of the model are raised while JAX traces the program, before anything
   runs: such a call prints nothing.  A message is its arguments; turning numbers into text and
   the moment at which the host flushes the output are left out. *)
From Coq Require Import List Arith Bool ZArith.
From Verif Require Import Num Py Arr MLayout MAssign MNoise MSparse MFactor MGraph MLinear MSolver.
Import ListNotations.

(* i, max_i (not printed by the fixed-iteration solver), cost, lambda or radius
   (_gauss_newton_solver.py:45-50, _fixed_iteration_gauss_newton_solver.py:50-54,
   _levenberg_marquardt_solver.py:62-68, _dogleg_solver.py:58-64); the last line
   (_nonlinear_solver_base.py:95-99, _fixed_iteration_gauss_newton_solver.py:116-120) *)
Inductive message (T : Type) :=
| Iteration (i : nat) (max_i : option Z) (cost : T) (extra : option T)
| Terminated (i : nat) (cost : T).
Arguments Iteration {T}. Arguments Terminated {T}.

Section Model.
Context {T : Type} {N : Num T}.
Variable E : env T.
Variable verbose : bool.

(* :114-117 *)
Definition say (m : message T) : list (message T) := if verbose then [m] else [].

(* a step that prints first *)
Definition logged (show : sstate T -> message T) (step : sstate T -> result (sstate T))
    (s : sstate T * list (message T)) : result (sstate T * list (message T)) :=
  s' <- step (fst s) ;; Ok (s', snd s ++ say (show (fst s))).

(* after the loop: the last line, then the result; a raised exception leaves no output *)
Definition finish (r : option (result (sstate T * list (message T)))) (out : sstate T -> result (assign T))
    : option (result (assign T) * list (message T)) :=
  match r with
  | None => None
  | Some (Err e) => Some (Err e, [])
  | Some (Ok (st, ms)) =>
      Some (match out st with
            | Err e => (Err e, [])
            | Ok a => (Ok a, ms ++ say (Terminated (s_iter st) (s_cost st)))
            end)
  end.

(* _nonlinear_solver_base.py:75-104 *)
Definition solve_logged (fuel : nat) (show : sstate T -> message T) (step : graph T -> sstate T -> result (sstate T)) (extra : T)
    (g : graph T) (init : assign T) : option (result (assign T) * list (message T)) :=
  match update_storage_layout (e_cls E) init (g_layout g) with
  | Err e => Some (Err e, [])
  | Ok a =>
      match init_state E g a extra with
      | Err e => Some (Err e, [])
      | Ok st =>
          finish (while_loop fuel (fun s => negb (s_done (fst s))) (logged show (step g)) (st, []))
                 (fun st' => update_storage_layout (e_cls E) (s_assign st') (as_layout init))
      end
  end.

Definition gn_show (cfg : term_cfg T) (s : sstate T) : message T :=
  Iteration (s_iter s) (Some (max_iterations cfg)) (s_cost s) None.
Definition extra_show (cfg : term_cfg T) (s : sstate T) : message T :=
  Iteration (s_iter s) (Some (max_iterations cfg)) (s_cost s) (Some (s_extra s)).
Definition fixed_show (s : sstate T) : message T := Iteration (s_iter s) None (s_cost s) None.

Definition gn_logged (fuel : nat) (cfg : term_cfg T) (lin : linear_solver) :=
  solve_logged fuel (gn_show cfg) (gn_step E cfg lin) n0.
Definition lm_logged (fuel : nat) (cfg : lm_cfg T) (lin : linear_solver) :=
  solve_logged fuel (extra_show (lm_term cfg)) (lm_step E cfg lin) (lambda_initial cfg).
Definition dl_logged (fuel : nat) (cfg : dl_cfg T) (lin : linear_solver) :=
  solve_logged fuel (extra_show (dl_term cfg)) (dl_step E cfg lin) (radius_initial cfg).

(* _fixed_iteration_gauss_newton_solver.py:91-122 *)
Definition fixed_logged (fuel : nat) (unroll : bool) (iterations : Z) (lin : linear_solver)
    (g : graph T) (init : assign T) : option (result (assign T) * list (message T)) :=
  match init_state E g init n0 with
  | Err e => Some (Err e, [])
  | Ok st =>
      finish (if unroll then Some (iterate (Z.to_nat iterations) (logged fixed_show (fixed_step E iterations lin g)) (st, []))
              else while_loop fuel (fun s => negb (s_done (fst s))) (logged fixed_show (fixed_step E iterations lin g)) (st, []))
             (fun st' => Ok (s_assign st'))
  end.
End Model.
