(* Model of jaxfg/solvers/*.py *)
From Coq Require Import List Arith Bool ZArith.
From Verif Require Import Num Py Arr MLayout MAssign MNoise MSparse MFactor MGraph MLinear.
Import ListNotations.

(* jax.lax.while_loop with explicit fuel: None = still running when the fuel is used up *)
Fixpoint while_loop {S} (fuel : nat) (cond : S -> bool) (body : S -> result S) (s : S)
    : option (result S) :=
  if cond s then
    match fuel with
    | O => None
    | S fuel' => match body s with
                 | Ok s' => while_loop fuel' cond body s'
                 | Err e => Some (Err e)
                 end
    end
  else Some (Ok s).

Section Model.
Context {T : Type} {N : Num T}.
Variable E : env T.
Let C := e_cls E.

(* _nonlinear_solver_base.py:21-29 plus lambd (_levenberg_marquardt_solver.py:16-20) or
   radius (_dogleg_solver.py:16-20) in [s_extra]; Gauss-Newton does not use it *)
Record sstate := mkState {
  s_iter : nat; s_assign : assign T; s_cost : T; s_res : list T; s_done : bool; s_extra : T }.

(* _mixins.py:31-49 *)
Record term_cfg := mkTerm {
  max_iterations : Z; cost_tolerance : T; gradient_tolerance : T;
  gradient_start : Z; parameter_tolerance : T }.

(* _mixins.py:51-57 *)
Definition exceeded_max_iterations (cfg : term_cfg) (st : sstate) : bool :=
  Z.leb (max_iterations cfg - 1) (Z.of_nat (s_iter st)).

(* _mixins.py:69-73 *)
Definition converged_cost (cfg : term_cfg) (st : sstate) (cost' : T) : bool :=
  nltb (ndiv (nabs (nsub cost' (s_cost st))) (s_cost st)) (cost_tolerance cfg).

(* _mixins.py:75-89; jnp.where evaluates both branches; jnp.max raises on empty input *)
Definition converged_gradient (cfg : term_cfg) (st : sstate) (delta : assign T) (ng : list T) : result bool :=
  a' <- manifold_retract C (s_assign st) (mkAssign ng (as_layout delta)) ;;
  match vsub (as_storage (s_assign st)) (as_storage a') with
  | [] => Err ValueError
  | x :: l => Ok (Z.leb (gradient_start cfg) (Z.of_nat (s_iter st))
                  && nltb (vmax x l) (gradient_tolerance cfg))
  end.

(* _mixins.py:91-99 *)
Definition converged_parameters (cfg : term_cfg) (st : sstate) (delta : assign T) : bool :=
  nltb (vnorm (map nabs (as_storage delta)))
       (nmul (nadd (vnorm (as_storage (s_assign st))) (parameter_tolerance cfg)) (parameter_tolerance cfg)).

(* _mixins.py:59-110 *)
Definition check_convergence (cfg : term_cfg) (st : sstate) (cost' : T) (delta : assign T)
    (ng : list T) : result bool :=
  cg <- converged_gradient cfg st delta ng ;;
  Ok (converged_cost cfg st cost' || cg || converged_parameters cfg st delta).

(* _mixins.py:16-28 compute_step_quality *)
Definition step_quality (A : coo T) (proposed : T) (st : sstate) (step : list T) : result T :=
  Ax <- matmul A step ;;
  Ok (ndiv (nsub proposed (s_cost st)) (nsub (sumsq (vadd Ax (s_res st))) (s_cost st))).

(* _initialize_state of every solver: _gauss_newton_solver.py:21-35,
   _levenberg_marquardt_solver.py:36-51, _dogleg_solver.py:33-48,
   _fixed_iteration_gauss_newton_solver.py:26-40 *)
Definition init_state (g : graph T) (a : assign T) (extra : T) : result sstate :=
  cr <- compute_cost E g a ;;
  Ok (mkState 0 a (fst cr) (snd cr) false extra).

(* ---- Gauss-Newton: _gauss_newton_solver.py:37-93 ---- *)
Definition gn_update (lin : linear_solver) (g : graph T) (st : sstate)
    : result (list T * assign T * assign T) :=           (* (ATb, delta, new assignments) *)
  A <- compute_whitened_residual_jacobian E g (s_assign st) (s_res st) ;;
  ATr <- matmul (transpose A) (s_res st) ;;
  let ATb := vneg ATr in
  step <- lin A ATb n0 (s_iter st) ;;
  let delta := mkAssign step (g_local_layout g) in
  a' <- manifold_retract C (s_assign st) delta ;;
  Ok (ATb, delta, a').

Definition gn_step (cfg : term_cfg) (lin : linear_solver) (g : graph T) (st : sstate) : result sstate :=
  u <- gn_update lin g st ;;
  let '(ATb, delta, a') := u in
  cr <- compute_cost E g a' ;;
  conv <- check_convergence cfg st (fst cr) delta ATb ;;
  Ok (mkState (s_iter st + 1) a' (fst cr) (snd cr)
              (exceeded_max_iterations cfg st || conv) (s_extra st)).

(* ---- fixed-iteration Gauss-Newton: _fixed_iteration_gauss_newton_solver.py:42-89 ---- *)
Definition fixed_step (iterations : Z) (lin : linear_solver) (g : graph T) (st : sstate) : result sstate :=
  u <- gn_update lin g st ;;
  let '(_, _, a') := u in
  cr <- compute_cost E g a' ;;
  Ok (mkState (s_iter st + 1) a' (fst cr) (snd cr)
              (Z.leb (iterations - 1) (Z.of_nat (s_iter st))) (s_extra st)).

(* ---- Levenberg-Marquardt: _levenberg_marquardt_solver.py ---- *)
(* :31-34, and step_quality_min of _mixins.py:14 *)
Record lm_cfg := mkLm {
  lm_term : term_cfg; lambda_initial : T; lambda_factor : T; lambda_min : T; lambda_max : T;
  lm_quality_min : T }.

(* :104-117 *)
Definition lm_lambda (cfg : lm_cfg) (lambd : T) (accept : bool) : T :=
  if accept then ndiv lambd (lambda_factor cfg)
  else nmax (lambda_min cfg) (nmin (nmul lambd (lambda_factor cfg)) (lambda_max cfg)).

(* :53-152 *)
Definition lm_step (cfg : lm_cfg) (lin : linear_solver) (g : graph T) (st : sstate) : result sstate :=
  A <- compute_whitened_residual_jacobian E g (s_assign st) (s_res st) ;;
  ATb <- matmul (transpose A) (vneg (s_res st)) ;;
  step <- lin A ATb (s_extra st) (s_iter st) ;;
  let delta := mkAssign step (g_local_layout g) in
  prop <- manifold_retract C (s_assign st) delta ;;
  cr <- compute_cost E g prop ;;
  q <- step_quality A (fst cr) st step ;;
  let accept := nleb (lm_quality_min cfg) q in
  conv <- check_convergence (lm_term cfg) st (fst cr) delta ATb ;;
  Ok (mkState (s_iter st + 1)
        (mkAssign (if accept then as_storage prop else as_storage (s_assign st)) (as_layout (s_assign st)))
        (if accept then fst cr else s_cost st)
        (snd cr)                                  (* :150: not guarded by accept_flag *)
        (exceeded_max_iterations (lm_term cfg) st || (accept && conv))
        (lm_lambda cfg (s_extra st) accept)).

(* ---- Dogleg: _dogleg_solver.py ---- *)
(* :31, and step_quality_min of _mixins.py:14 *)
Record dl_cfg := mkDl { dl_term : term_cfg; radius_initial : T; dl_quality_min : T }.

(* :101-105 *)
Definition dogleg_beta (c bma r2ma : T) : T :=
  let sq := nsqrt (nadd (nmul c c) (nmul bma r2ma)) in
  if nleb c n0 then ndiv (nadd (nneg c) sq) bma else ndiv r2ma (nadd c sq).

(* :82-120, given the Gauss-Newton step; [Asd] is A @ step_vector_sd *)
Definition dogleg_step_of (sd Asd gn : list T) (radius : T) : list T :=
  let alpha := ndiv (sumsq sd) (sumsq Asd) in
  let a := vscale alpha sd in
  let b := gn in
  let c := vsum (vmul a (vsub b a)) in
  let a2 := sumsq a in
  let bma := sumsq (vsub b a) in
  let r2ma := nsub (nmul radius radius) a2 in
  let beta := dogleg_beta c bma r2ma in
  if nleb (vnorm gn) radius then gn
  else if nleb radius (vnorm a) then vscale (ndiv radius (vnorm a)) a
  else vadd a (vscale beta (vsub gn a)).

(* :142-153 *)
Definition dogleg_radius (radius q : T) (step : list T) : T :=
  if nltb q (nlit 1 4) then ndiv radius (nlit 2 1)
  else if nltb (nlit 3 4) q then nmax radius (nmul (nlit 3 1) (vnorm step))
  else radius.

(* :50-188 *)
Definition dl_step (cfg : dl_cfg) (lin : linear_solver) (g : graph T) (st : sstate) : result sstate :=
  A <- compute_whitened_residual_jacobian E g (s_assign st) (s_res st) ;;
  ATb <- matmul (transpose A) (vneg (s_res st)) ;;
  gn <- lin A ATb n0 (s_iter st) ;;
  Asd <- matmul A ATb ;;
  let step := dogleg_step_of ATb Asd gn (s_extra st) in
  let delta := mkAssign step (g_local_layout g) in
  prop <- manifold_retract C (s_assign st) delta ;;
  cr <- compute_cost E g prop ;;
  q <- step_quality A (fst cr) st step ;;
  let accept := nleb (dl_quality_min cfg) q in
  conv <- check_convergence (dl_term cfg) st (fst cr) delta ATb ;;
  Ok (mkState (s_iter st + 1)
        (mkAssign (if accept then as_storage prop else as_storage (s_assign st)) (as_layout (s_assign st)))
        (if accept then fst cr else s_cost st)
        (snd cr)                                  (* :186: not guarded by accept_flag *)
        (exceeded_max_iterations (dl_term cfg) st || (accept && conv))
        (dogleg_radius (s_extra st) q step)).

(* ---- NonlinearSolverBase.solve: _nonlinear_solver_base.py:75-104 ---- *)
Definition solve_with (fuel : nat) (step : graph T -> sstate -> result sstate) (extra : T)
    (g : graph T) (init : assign T) : option (result (assign T)) :=
  match update_storage_layout C init (g_layout g) with
  | Err e => Some (Err e)
  | Ok a =>
      match init_state g a extra with
      | Err e => Some (Err e)
      | Ok st =>
          match while_loop fuel (fun s => negb (s_done s)) (step g) st with
          | None => None
          | Some (Err e) => Some (Err e)
          | Some (Ok st') => Some (update_storage_layout C (s_assign st') (as_layout init))
          end
      end
  end.

Definition gn_solve (fuel : nat) (cfg : term_cfg) (lin : linear_solver) :=
  solve_with fuel (gn_step cfg lin) n0.
Definition lm_solve (fuel : nat) (cfg : lm_cfg) (lin : linear_solver) :=
  solve_with fuel (lm_step cfg lin) (lambda_initial cfg).
Definition dl_solve (fuel : nat) (cfg : dl_cfg) (lin : linear_solver) :=
  solve_with fuel (dl_step cfg lin) (radius_initial cfg).

(* for i in range(n): s = f(s) *)
Fixpoint iterate {S} (n : nat) (f : S -> result S) (s : S) : result S :=
  match n with O => Ok s | S n' => s' <- f s ;; iterate n' f s' end.

(* ---- FixedIterationGaussNewtonSolver.solve: _fixed_iteration_gauss_newton_solver.py:91-122
   (overrides solve; no update_storage_layout) ---- *)
Definition fixed_solve (fuel : nat) (unroll : bool) (iterations : Z) (lin : linear_solver)
    (g : graph T) (init : assign T) : option (result (assign T)) :=
  match init_state g init n0 with
  | Err e => Some (Err e)
  | Ok st =>
      let run := if unroll then Some (iterate (Z.to_nat iterations) (fixed_step iterations lin g) st)
                 else while_loop fuel (fun s => negb (s_done s)) (fixed_step iterations lin g) st in
      match run with
      | None => None
      | Some (Err e) => Some (Err e)
      | Some (Ok st') => Some (Ok (s_assign st'))
      end
  end.
End Model.
Arguments sstate : clear implicits.
Arguments term_cfg : clear implicits.
Arguments lm_cfg : clear implicits.
Arguments dl_cfg : clear implicits.
