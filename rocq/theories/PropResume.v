(* Theorems C80: stopping a solver and starting it again from the result. *)
From Coq Require Import List Arith Bool ZArith.
From Verif Require Import Num NumR NumF32 Py Arr MLayout MAssign MNoise MSparse MFactor MGraph MLinear MSolver SpecLayout SpecTree SpecAssign SpecGraph SpecSolver SpecResume Ex ExS PResume PExSolver PExResume.
Import ListNotations.
#[local] Existing Instance NumF32.

Theorem C80_blind_solvers :
  forall (T : Type) (N : Num T), iteration_blind (cholmod_solve (T := T)) /\
  forall tol, iteration_blind (conjugate_gradient_solver (T := T) tol).
Proof. exact blind_solvers. Qed.
Print Assumptions C80_blind_solvers.

Theorem C80_fixed_iterations_split :
  forall (T : Type) (N : Num T) (E : env T) lin g init n m u u' u'' f f' f'', iteration_blind lin -> (1 <= n)%Z -> (1 <= m)%Z ->
  Z.to_nat n <= f -> Z.to_nat m <= f' -> Z.to_nat (n + m) <= f'' ->
  forall b, fixed_solve E f u n lin g init = Some (Ok b) ->
  fixed_solve E f' u' m lin g b = fixed_solve E f'' u'' (n + m) lin g init.
Proof. exact @fixed_resumes. Qed.
Print Assumptions C80_fixed_iterations_split.

Theorem C80_limit_not_reached :
  forall (T : Type) (N : Num T) (E : env T) g init lin step x0 solve gs, restartable E lin step x0 solve gs ->
  forall n m a c res, (1 <= n)%Z -> (1 <= m)%Z ->
  update_storage_layout (e_cls E) init (g_layout g) = Ok a -> compute_cost E g a = Ok (c, res) ->
  forall k st f f', runs (step (n + m)%Z g) k (mkState 0 a c res false x0) st -> s_done st = true -> (Z.of_nat k <= n)%Z ->
  Z.to_nat n <= f -> Z.to_nat (n + m) <= f' ->
  solve n x0 f g init = solve (n + m)%Z x0 f' g init.
Proof. exact @stops_early. Qed.
Print Assumptions C80_limit_not_reached.

Theorem C80_resumes :
  forall (T : Type) (N : Num T) (E : env T) fs g init vs lin step x0 solve gs, classes_ok (e_cls E) ->
  (forall f, In f fs -> factor_ok f) -> graph_make E fs = Ok g -> wf_assign (e_cls E) vs false init ->
  restartable E lin step x0 solve gs ->
  forall n m a c res, (1 <= n)%Z -> (1 <= m)%Z ->
  update_storage_layout (e_cls E) init (g_layout g) = Ok a -> compute_cost E g a = Ok (c, res) ->
  forall st f f' f'', iteration_blind lin -> (gs <= 0)%Z ->
  (* the uninterrupted run is still going after n iterations, the last of them accepted *)
  runs (step (n + m)%Z g) (Z.to_nat n) (mkState 0 a c res false x0) st -> s_done st = false -> current E g st ->
  Z.to_nat n <= f -> Z.to_nat m <= f' -> Z.to_nat (n + m) <= f'' ->
  exists b, solve n x0 f g init = Some (Ok b) /\ (forall v, get_value (e_cls E) b v = get_value (e_cls E) (s_assign st) v) /\
    solve m (s_extra st) f' g b = solve (n + m)%Z x0 f'' g init.
Proof. exact @resumes. Qed.
Print Assumptions C80_resumes.

Theorem C80_gauss_newton_split :
  forall (T : Type) (N : Num T) (E : env T) fs g init vs lin cfg n m f f' f'' b, classes_ok (e_cls E) ->
  (forall h, In h fs -> factor_ok h) -> graph_make E fs = Ok g -> wf_assign (e_cls E) vs false init ->
  iteration_blind lin -> (gradient_start cfg <= 0)%Z -> (1 <= n)%Z -> (1 <= m)%Z ->
  Z.to_nat n <= f -> Z.to_nat m <= f' -> Z.to_nat (n + m) <= f'' ->
  gn_solve E f (term_with n cfg) lin g init = Some (Ok b) ->
  gn_solve E f'' (term_with (n + m) cfg) lin g init = Some (Ok b) \/
  gn_solve E f'' (term_with (n + m) cfg) lin g init = gn_solve E f' (term_with m cfg) lin g b.
Proof. exact @gn_splits. Qed.
Print Assumptions C80_gauss_newton_split.

Example C80_example : classes_ok (exC (N := NumF32)) /\ (forall f, In f (sq (T := f32) 2) -> factor_ok f) /\ graph_make exSE (sq 2) = Ok (gsq 2) /\
  wf_assign exC [vx] false (sat (lit 8)) /\
  restartable exSE cholmod_solve (fun n => lm_step exSE (lm_with n (lambda_initial lm_eager) lm_eager) cholmod_solve) (lambda_initial lm_eager)
    (fun n x fuel => lm_solve exSE fuel (lm_with n x lm_eager) cholmod_solve) 0 /\
  update_storage_layout exC (sat (lit 8)) (g_layout (gsq 2)) = Ok (sat (lit 8)) /\
  exists c res st r, compute_cost exSE (gsq 2) (sat (lit 8)) = Ok (c, res) /\
    runs (lm_step exSE (lm_with 4 (lambda_initial lm_eager) lm_eager) cholmod_solve (gsq 2)) 2 (mkState 0 (sat (lit 8)) c res false (lambda_initial lm_eager)) st /\
    s_done st = false /\ current exSE (gsq 2) st /\
    lm_solve exSE 9 (lm_with 4 (lambda_initial lm_eager) lm_eager) cholmod_solve (gsq 2) (sat (lit 8)) = Some (Ok r) /\ as_storage r <> as_storage (s_assign st).
Proof. exact ex_resume. Qed.

Example C80_gauss_newton_example : exists b r, gn_solve exSE 9 (term_with 2 eager) cholmod_solve (gsq 2) (sat (lit 8)) = Some (Ok b) /\
  gn_solve exSE 9 (term_with 4 eager) cholmod_solve (gsq 2) (sat (lit 8)) = Some (Ok r) /\ as_storage r <> as_storage b /\
  gn_solve exSE 9 (term_with 2 eager) cholmod_solve (gsq 2) b = Some (Ok r).
Proof. exact ex_gn_split. Qed.

(* the tolerance of the inexact solver starts again at eta *)
Theorem C80_inexact_refuted : exists (E : env f32) fs g vs init b r r',
  differs E fs g vs init b r r' (fixed_solve E 5 true 1 (inexact_cg_solver (nlit 1 100)))
    (fixed_solve E 5 true 1 (inexact_cg_solver (nlit 1 100))) (fixed_solve E 5 true 2 (inexact_cg_solver (nlit 1 100))).
Proof. exact inexact_differs. Qed.
Print Assumptions C80_inexact_refuted.

(* with the default settings the gradient is not tested in the first ten iterations of either call *)
Theorem C80_gradient_start_refuted : exists (E : env f32) fs g vs init b r r',
  differs E fs g vs init b r r' (gn_solve E 99 (term_with 5 (term_default 100)) cholmod_solve)
    (gn_solve E 99 (term_with 15 (term_default 100)) cholmod_solve) (gn_solve E 99 (term_with 20 (term_default 100)) cholmod_solve).
Proof. exact gradient_start_differs. Qed.
Print Assumptions C80_gradient_start_refuted.

(* the damping and the radius start again at their initial values *)
Theorem C80_damping_refuted :
  (exists (E : env f32) fs g vs init b r r', differs E fs g vs init b r r' (lm_solve E 9 (lm_with 2 (nlit 5 10000) lm_eager) cholmod_solve)
    (lm_solve E 9 (lm_with 2 (nlit 5 10000) lm_eager) cholmod_solve) (lm_solve E 9 (lm_with 4 (nlit 5 10000) lm_eager) cholmod_solve)) /\
  (exists (E : env f32) fs g vs init b r r', differs E fs g vs init b r r' (dl_solve E 9 (dl_with 2 n1 dl_eager) cholmod_solve)
    (dl_solve E 9 (dl_with 2 n1 dl_eager) cholmod_solve) (dl_solve E 9 (dl_with 4 n1 dl_eager) cholmod_solve)).
Proof. exact damping_differs. Qed.
Print Assumptions C80_damping_refuted.

(* after a rejection the uninterrupted run goes on with the residual of the rejected proposal *)
Theorem C80_rejected_refuted :
  (exists (E : env f32) fs g vs init b r r' c res st, differs E fs g vs init b r r' (lm_solve E 9 (lm_with 1 (nlit 5 10000) lm_eager) cholmod_solve)
      (lm_solve E 9 (lm_with 1 (s_extra st) lm_eager) cholmod_solve) (lm_solve E 9 (lm_with 2 (nlit 5 10000) lm_eager) cholmod_solve) /\
    compute_cost E g init = Ok (c, res) /\ runs (lm_step E (lm_with 2 (nlit 5 10000) lm_eager) cholmod_solve g) 1 (mkState 0 init c res false (nlit 5 10000)) st /\
    s_done st = false /\ s_assign st = init) /\
  (exists (E : env f32) fs g vs init b r r' c res st, differs E fs g vs init b r r' (dl_solve E 9 (dl_with 1 (lit 1000) dl_eager) cholmod_solve)
      (dl_solve E 9 (dl_with 1 (s_extra st) dl_eager) cholmod_solve) (dl_solve E 9 (dl_with 2 (lit 1000) dl_eager) cholmod_solve) /\
    compute_cost E g init = Ok (c, res) /\ runs (dl_step E (dl_with 2 (lit 1000) dl_eager) cholmod_solve g) 1 (mkState 0 init c res false (lit 1000)) st /\
    s_done st = false /\ s_assign st = init).
Proof. exact rejected_differs. Qed.
Print Assumptions C80_rejected_refuted.
