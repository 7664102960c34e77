(* Specification vocabulary for the nonlinear solvers. *)
From Coq Require Import List Arith Bool ZArith Reals.
From Verif Require Import Num NumR Py Arr MLayout MAssign MNoise MSparse MFactor MGraph MLinear MSolver SpecSparse.
Import ListNotations.

Section Spec.
Context {T : Type}.
Variable step : sstate T -> result (sstate T).

(* k loop iterations lead from one state to another, the loop condition having been checked
   before each *)
Inductive runs : nat -> sstate T -> sstate T -> Prop :=
| runs_0 s : runs 0 s s
| runs_S k s s' s'' : s_done s = false -> step s = Ok s' -> runs k s' s'' -> runs (S k) s s''.

(* the loop started in st ends with r: either after k iterations, lo <= k <= hi, in a state
   that is done, or because iteration k + 1 <= hi raises *)
Definition stops_within (lo hi : nat) (st : sstate T) (r : result (sstate T)) : Prop :=
  (exists k st', lo <= k <= hi /\ runs k st st' /\ s_done st' = true /\ r = Ok st') \/
  (exists k st' e, k < hi /\ runs k st st' /\ s_done st' = false /\ step st' = Err e /\ r = Err e).
End Spec.

Section Solve.
Context {T : Type} {N : Num T}.
Variable E : env T.
(* what a call of solve is: convert to the graph's layout, initialise, loop, convert back *)
Definition solve_outcome (step : graph T -> sstate T -> result (sstate T)) (extra : T) (lo hi : nat)
    (g : graph T) (init : assign T) (r : result (assign T)) : Prop :=
  (exists e, update_storage_layout (e_cls E) init (g_layout g) = Err e /\ r = Err e) \/
  (exists a, update_storage_layout (e_cls E) init (g_layout g) = Ok a /\
    ((exists e, compute_cost E g a = Err e /\ r = Err e) \/
     (exists c res run, compute_cost E g a = Ok (c, res) /\
       stops_within (step g) lo hi (mkState 0 a c res false extra) run /\
       r = (st <- run ;; update_storage_layout (e_cls E) (s_assign st) (as_layout init))))).

(* plain Gauss-Newton: k steps from a, the linear solver being told the index i of the step *)
Definition gauss_newton_step (lin : linear_solver) (g : graph T) (i : nat) (a : assign T) : result (assign T) :=
  r <- compute_whitened_residual_vector E g a ;;
  A <- compute_whitened_residual_jacobian E g a r ;;
  ATr <- matmul (transpose A) r ;;
  d <- lin A (vneg ATr) n0 i ;;
  manifold_retract (e_cls E) a (mkAssign d (g_local_layout g)).
Fixpoint gauss_newton (lin : linear_solver) (g : graph T) (k i : nat) (a : assign T) : result (assign T) :=
  match k with
  | O => Ok a
  | S k' => a' <- gauss_newton_step lin g i a ;; gauss_newton lin g k' (S i) a'
  end.

(* the state's residual vector and cost are those of its assignment *)
Definition current (g : graph T) (s : sstate T) : Prop := compute_cost E g (s_assign s) = Ok (s_cost s, s_res s).
Definition cost_current (g : graph T) (s : sstate T) : Prop := exists r, compute_cost E g (s_assign s) = Ok (s_cost s, r).

(* one iteration of a trust-region solver: with A the Jacobian, the step vector leads to the
   proposal prop with cost c and residual r; its quality q, the ratio of the actual to the
   predicted change of the cost, decides whether the proposal becomes the new assignment *)
Record trust_step (g : graph T) (qmin : T) (s s' : sstate T) (A : coo T) (step : list T) (prop : assign T) (c : T) (r : list T) (q : T) : Prop := {
  tr_A : compute_whitened_residual_jacobian E g (s_assign s) (s_res s) = Ok A;
  tr_prop : manifold_retract (e_cls E) (s_assign s) (mkAssign step (g_local_layout g)) = Ok prop;
  tr_cost : compute_cost E g prop = Ok (c, r);
  tr_q : exists Ad, matmul A step = Ok Ad /\ q = ndiv (nsub c (s_cost s)) (nsub (sumsq (vadd Ad (s_res s))) (s_cost s));
  tr_acc : nleb qmin q = true -> s_assign s' = prop /\ s_cost s' = c;
  tr_rej : nleb qmin q = false -> s_assign s' = s_assign s /\ s_cost s' = s_cost s;
  tr_res : s_res s' = r; tr_iter : s_iter s' = S (s_iter s) }.

(* the three convergence-controlled solvers: loop body, initial lambda / radius, solve() *)
Inductive nonlinear_solver (lin : linear_solver (T := T)) : (graph T -> sstate T -> result (sstate T)) -> T ->
    (nat -> graph T -> assign T -> option (result (assign T))) -> Prop :=
| solver_gn cfg : nonlinear_solver lin (gn_step E cfg lin) n0 (fun fuel => gn_solve E fuel cfg lin)
| solver_lm cfg : nonlinear_solver lin (lm_step E cfg lin) (lambda_initial cfg) (fun fuel => lm_solve E fuel cfg lin)
| solver_dl cfg : nonlinear_solver lin (dl_step E cfg lin) (radius_initial cfg) (fun fuel => dl_solve E fuel cfg lin).

(* a trust-region loop body and its acceptance threshold *)
Inductive trust_body (lin : linear_solver (T := T)) : (graph T -> sstate T -> result (sstate T)) -> T -> Prop :=
| trust_lm cfg : trust_body lin (lm_step E cfg lin) (lm_quality_min cfg)
| trust_dl cfg : trust_body lin (dl_step E cfg lin) (dl_quality_min cfg).

(* the number of iterations allowed by max_iterations *)
Definition iteration_cap (max_it : Z) : nat := Nat.max 1 (Z.to_nat max_it).
End Solve.

(* the convergence tests for a step d with negative gradient ng from the state s to cost c *)
Definition converged (E : env R) (cfg : term_cfg R) (s : sstate R) (L : layout) (c : R) (d ng : list R) : Prop :=
  exists a', manifold_retract (e_cls E) (s_assign s) (mkAssign ng L) = Ok a' /\
  let x := as_storage (s_assign s) in
  (Rabs (c - s_cost s) / s_cost s < cost_tolerance cfg \/
   ((gradient_start cfg <= Z.of_nat (s_iter s))%Z /\
    forall i, (i < length x)%nat -> nth i x 0 - nth i (as_storage a') 0 < gradient_tolerance cfg) \/
   sqrt (sumsq d) < (sqrt (sumsq x) + parameter_tolerance cfg) * parameter_tolerance cfg)%R.

(* a stationary point over the extended reals: everything finite, zero gradient A^T r, and
   retraction by the zero tangent vector leaves the assignment alone *)
Record stationary (E : env xr) (g : graph xr) (a : assign xr) (c : R) (r x : list R) (A : coo R) : Prop := {
  st_cost : compute_cost (N := NumXR) E g a = Ok (Fin c, finite r);
  st_jac : compute_whitened_residual_jacobian (N := NumXR) E g a (finite r) = Ok (finite_coo A);
  st_coo : coo_ok A;
  st_len : length r = fst (m_shape A);
  st_grad : matmul (transpose A) r = Ok (vzero (snd (m_shape A)));
  st_storage : as_storage a = finite x;
  st_nonempty : x <> [];
  st_zero : manifold_retract (N := NumXR) (e_cls E) a (mkAssign (finite (vzero (snd (m_shape A)))) (g_local_layout g)) = Ok a }.
