(* Theorems C27-C29, C31-C39: the nonlinear solvers. *)
From Coq Require Import List Arith Bool ZArith Reals.
From Verif Require Import Num NumR NumF32 Py Arr MLayout MAssign MNoise MSparse MFactor MGraph MLinear MSolver SpecLayout SpecTree SpecAssign SpecGraph SpecSparse SpecSolver SpecInv MLog SpecLog Ex ExS PSolver2 PSolverR PSolverX PExSolver PStop PExStop PLog PExLog.
Import ListNotations.
#[local] Existing Instance NumF32.
#[local] Existing Instance NumXR.

Theorem C27_termination :
  forall (T : Type) (N : Num T) (E : env T) g init lin fuel,
  (forall cfg, iteration_cap (max_iterations cfg) <= fuel ->
     exists r, gn_solve E fuel cfg lin g init = Some r /\
       solve_outcome E (gn_step E cfg lin) n0 1 (iteration_cap (max_iterations cfg)) g init r) /\
  (forall cfg, iteration_cap (max_iterations (lm_term cfg)) <= fuel ->
     exists r, lm_solve E fuel cfg lin g init = Some r /\
       solve_outcome E (lm_step E cfg lin) (lambda_initial cfg) 1 (iteration_cap (max_iterations (lm_term cfg))) g init r) /\
  (forall cfg, iteration_cap (max_iterations (dl_term cfg)) <= fuel ->
     exists r, dl_solve E fuel cfg lin g init = Some r /\
       solve_outcome E (dl_step E cfg lin) (radius_initial cfg) 1 (iteration_cap (max_iterations (dl_term cfg))) g init r).
Proof. exact @solvers_terminate. Qed.
Print Assumptions C27_termination.

Example C27_example :
  iteration_cap (max_iterations (term_default (T := f32) 3)) = 3 /\ iteration_cap (max_iterations (term_default (T := f32) (-5))) = 1 /\
  (exists a st, gn_solve exSE 3 (term_default 3) cholmod_solve (gsq 0) (scalars [vx] [lit 8]) = Some (Ok a) /\
     runs (gn_step exSE (term_default 3) cholmod_solve (gsq 0)) 3 (start (gsq 0) (scalars [vx] [lit 8]) n0) st /\ s_assign st = a) /\
  (exists a st, lm_solve exSE 1 (lm_default (-5)) cholmod_solve (gsq 0) (scalars [vx] [lit 8]) = Some (Ok a) /\
     runs (lm_step exSE (lm_default (-5)) cholmod_solve (gsq 0)) 1 (start (gsq 0) (scalars [vx] [lit 8]) (nlit 5 10000)) st /\ s_assign st = a).
Proof. exact ex_terminates. Qed.

Theorem C28_exactly_iterations :
  forall (T : Type) (N : Num T) (E : env T) lin g init fuel,
  (forall unroll it, (1 <= it)%Z -> Z.to_nat it <= fuel ->
     fixed_solve E fuel unroll it lin g init =
       Some (a <- gauss_newton E lin g (Z.to_nat it) 0 init ;; _ <- compute_whitened_residual_vector E g a ;; Ok a)) /\
  (forall it, (it <= 0)%Z -> 1 <= fuel ->
     fixed_solve E fuel true it lin g init = Some (_ <- compute_whitened_residual_vector E g init ;; Ok init) /\
     fixed_solve E fuel false it lin g init =
       Some (a <- gauss_newton E lin g 1 0 init ;; _ <- compute_whitened_residual_vector E g a ;; Ok a)).
Proof. exact fixed_exact. Qed.
Print Assumptions C28_exactly_iterations.

Theorem C28_zero_iterations_refuted :
  exists (E : env f32) lin g init a b fuel,
  fixed_solve (N := NumF32) E fuel true 0 lin g init = Some (Ok a) /\ fixed_solve (N := NumF32) E fuel false 0 lin g init = Some (Ok b) /\
  a = init /\ as_storage b <> as_storage init.
Proof. exact fixed_zero_differs. Qed.
Print Assumptions C28_zero_iterations_refuted.

Example C28_example : exists a, fixed_solve (N := NumF32) exSE 5 true 2 cholmod_solve gtwo straight = Some (Ok a) /\
  fixed_solve (N := NumF32) exSE 5 false 2 cholmod_solve gtwo straight = Some (Ok a) /\ as_storage a <> as_storage straight.
Proof. exact ex_fixed. Qed.

Theorem C29_returns_callers_layout :
  forall (T : Type) (N : Num T) (E : env T) fs g init vs local lin step extra solve fuel, classes_ok (e_cls E) ->
  (forall f, In f fs -> factor_ok f) -> graph_make E fs = Ok g -> wf_assign (e_cls E) vs local init ->
  nonlinear_solver E lin step extra solve ->
  (forall a', local = false -> solve fuel g init = Some (Ok a') ->
     same_layout (as_layout a') (as_layout init) /\ length (as_storage a') = length (as_storage init) /\
     exists a c res k st, update_storage_layout (e_cls E) init (g_layout g) = Ok a /\ compute_cost E g a = Ok (c, res) /\
       runs (step g) k (mkState 0 a c res false extra) st /\ s_done st = true /\
       forall v, get_value (e_cls E) a' v = get_value (e_cls E) (s_assign st) v) /\
  (~ (forall v, In v vs <-> In v (mentioned fs)) -> solve fuel g init = Some (Err AssertionError)).
Proof. exact @solvers_layout. Qed.
Print Assumptions C29_returns_callers_layout.

Example C29_example : classes_ok (exC (N := NumF32)) /\ (forall f, In f (two (N := NumF32)) -> factor_ok f) /\
  graph_make exSE two = Ok gtwo /\ wf_assign exC [vy; vx] false swapped /\
  (exists a, dl_solve exSE 9 (dl_default 9) cholmod_solve gtwo swapped = Some (Ok a)) /\
  (exists a, gn_solve exSE 9 (term_default 9) cholmod_solve gtwo swapped = Some (Ok a) /\
     as_layout a = as_layout swapped /\ as_layout swapped <> g_layout gtwo) /\
  wf_assign exC [vx] false (scalars (N := NumF32) [vx] [lit 1]) /\ ~ (forall v, In v [vx] <-> In v (mentioned (two (N := NumF32)))).
Proof. exact ex_layout_kept. Qed.

Theorem C31_fixed_in_graph_order :
  forall (T : Type) (N : Num T) (E : env T) fs g init vs lin, (forall f, In f fs -> factor_ok f) -> graph_make E fs = Ok g ->
  wf_assign (e_cls E) vs false init -> same_layout (as_layout init) (g_layout g) ->
  forall cfg c res k st fuel unroll, compute_cost E g init = Ok (c, res) -> 1 <= k -> k <= fuel ->
  runs (gn_step E cfg lin g) k (mkState 0 init c res false n0) st ->
  update_storage_layout (e_cls E) init (g_layout g) = Ok init /\
  fixed_solve E fuel unroll (Z.of_nat k) lin g init = Some (Ok (s_assign st)).
Proof. exact @fixed_is_gn. Qed.
Print Assumptions C31_fixed_in_graph_order.

Theorem C31_other_order_refuted :
  exists (E : env f32) fs g init init' a b v w,
  graph_make E fs = Ok g /\ wf_assign (e_cls E) [w; v] false init /\ (forall u, In u [w; v] <-> In u (mentioned fs)) /\
  update_storage_layout (N := NumF32) (e_cls E) init (g_layout g) = Ok init' /\
  fixed_solve (N := NumF32) E 1 false 1 cholmod_solve g init = Some (Ok a) /\ fixed_solve (N := NumF32) E 1 false 1 cholmod_solve g init' = Some (Ok b) /\
  get_value (e_cls E) init v = get_value (e_cls E) init w /\
  get_value (e_cls E) a v = get_value (e_cls E) b w /\ get_value (e_cls E) a w = get_value (e_cls E) b v /\
  get_value (e_cls E) a v <> get_value (e_cls E) b v.
Proof. exact fixed_swaps. Qed.
Print Assumptions C31_other_order_refuted.

Example C31_example : (forall f, In f (two (N := NumF32)) -> factor_ok f) /\ graph_make exSE two = Ok gtwo /\
  wf_assign exC [vx; vy] false straight /\ same_layout (as_layout straight) (g_layout gtwo) /\
  exists c res st, compute_cost exSE gtwo straight = Ok (c, res) /\
    runs (gn_step exSE (term_default 100) cholmod_solve gtwo) 2 (mkState 0 straight c res false n0) st.
Proof. exact ex_fixed_gn. Qed.

Theorem C32_tracked_cost :
  forall (T : Type) (N : Num T) (E : env T) g lin s, compute_cost E g (s_assign s) = Ok (s_cost s, s_res s) ->
  (forall cfg k s', runs (gn_step E cfg lin g) k s s' -> compute_cost E g (s_assign s') = Ok (s_cost s', s_res s')) /\
  (forall cfg k s', runs (lm_step E cfg lin g) k s s' -> cost_current E g s') /\
  (forall cfg k s', runs (dl_step E cfg lin g) k s s' -> cost_current E g s').
Proof. exact @tracked_cost. Qed.
Print Assumptions C32_tracked_cost.

Example C32_example : current (N := NumF32) exSE (gsq 2) s_bad /\
  exists s1 s2, runs (lm_step (N := NumF32) exSE (lm_default 100) cholmod_solve (gsq 2)) 2 s_bad s2 /\
  lm_step (N := NumF32) exSE (lm_default 100) cholmod_solve (gsq 2) s_bad = Ok s1 /\ s_cost s1 = s_cost s_bad /\ s_cost s2 <> s_cost s1.
Proof. exact ex_current. Qed.

Theorem C33_residual_of_last_proposal :
  forall (T : Type) (N : Num T) (E : env T) lin step qmin g s s', trust_body E lin step qmin -> step g s = Ok s' ->
  exists A d prop c r q, trust_step E g qmin s s' A d prop c r q /\
    (nleb qmin q = true -> current E g s') /\
    (nleb qmin q = false -> s_assign s' = s_assign s /\ exists c, compute_cost E g prop = Ok (c, s_res s')).
Proof. exact @residual_of_last_proposal. Qed.
Print Assumptions C33_residual_of_last_proposal.

Theorem C33_until_rejection :
  forall (T : Type) (N : Num T) (E : env T) lin step qmin g a extra s, trust_body E lin step qmin -> init_state E g a extra = Ok s ->
  s_assign s = a /\ current E g s /\
  forall k st s', trail (step g) k s st s' -> (forall i A d prop c r q, i < k -> trust_step E g qmin (st i) (st (S i)) A d prop c r q -> nleb qmin q = true) ->
    forall i, i <= k -> current E g (st i).
Proof. exact @until_rejection. Qed.
Print Assumptions C33_until_rejection.

Example C33_until_example : exists s s1, init_state (N := NumF32) exSE (gsq 2) (scalars [vx] [lit 1]) n1 = Ok s /\
  dl_step (N := NumF32) exSE (dl_default 9) cholmod_solve (gsq 2) s = Ok s1 /\ s_done s1 = false /\ s_assign s1 <> s_assign s /\ current (N := NumF32) exSE (gsq 2) s1.
Proof. exact ex_until. Qed.

Theorem C33_after_rejection_refuted :
  (exists (E : env f32) fs g cfg s0 s1 r, graph_make E fs = Ok g /\ current (N := NumF32) E g s0 /\
     runs (lm_step (N := NumF32) E cfg cholmod_solve g) 1 s0 s1 /\ s_done s1 = false /\
     compute_whitened_residual_vector (N := NumF32) E g (s_assign s1) = Ok r /\ r <> s_res s1) /\
  (exists (E : env f32) fs g cfg s0 s1 r, graph_make E fs = Ok g /\ current (N := NumF32) E g s0 /\
     runs (dl_step (N := NumF32) E cfg cholmod_solve g) 1 s0 s1 /\ s_done s1 = false /\
     compute_whitened_residual_vector (N := NumF32) E g (s_assign s1) = Ok r /\ r <> s_res s1).
Proof. exact residual_goes_stale. Qed.
Print Assumptions C33_after_rejection_refuted.

Example C33_example : exists s', trust_body (N := NumF32) exSE cholmod_solve (lm_step exSE (lm_default 100) cholmod_solve) (lm_quality_min (lm_default 100)) /\
  lm_step (N := NumF32) exSE (lm_default 100) cholmod_solve (gsq 2) s_bad = Ok s'.
Proof. exact ex_trust. Qed.

Section RealTheorems.
Local Open Scope R_scope.

Theorem C34_accepted_decreases :
  forall (E : env R) lin step qmin g s s', trust_body E lin step qmin -> 0 < qmin -> step g s = Ok s' ->
  exists A d prop c r q Ad, trust_step E g qmin s s' A d prop c r q /\ matmul A d = Ok Ad /\
    (qmin <= q -> s_assign s' = prop /\ s_cost s' = c /\ (sumsq (vadd Ad (s_res s)) < s_cost s -> s_cost s' < s_cost s)) /\
    (q < qmin -> s_assign s' = s_assign s /\ s_cost s' = s_cost s).
Proof. exact accepted_decreases. Qed.
Print Assumptions C34_accepted_decreases.

Theorem C34_lm_predicts_decrease :
  forall (E : env R) fs g val cfg s s', (forall f, In f fs -> factor_ok f) -> graph_make E fs = Ok g ->
  assigns E fs (s_assign s) val -> (forall f, In f fs -> residual_shape_ok E val f) ->
  (forall f, In f fs -> jacobian_shape_ok E val f) -> total residual_dim fs <> 0%nat ->
  current E g s -> 0 < s_extra s + Rlit 1 100000 -> 0 < lm_quality_min cfg ->
  lm_step E cfg cholmod_solve g s = Ok s' ->
  exists A ATb d prop c r q Ad, trust_step E g (lm_quality_min cfg) s s' A d prop c r q /\
    matmul (transpose A) (vneg (s_res s)) = Ok ATb /\ cholmod_solve A ATb (s_extra s) (s_iter s) = Ok d /\ matmul A d = Ok Ad /\
    sumsq (vadd Ad (s_res s)) <= s_cost s /\
    (ATb <> vzero (length ATb) -> sumsq (vadd Ad (s_res s)) < s_cost s /\ s_cost s' <= s_cost s).
Proof. exact lm_prediction. Qed.
Print Assumptions C34_lm_predicts_decrease.

Theorem C34_cost_raised_refuted :
  exists (E : env f32) fs g s0 s1 s2, graph_make E fs = Ok g /\ current (N := NumF32) E g s0 /\
  runs (lm_step (N := NumF32) E (lm_default 100) cholmod_solve g) 1 s0 s1 /\ runs (lm_step (N := NumF32) E (lm_default 100) cholmod_solve g) 1 s1 s2 /\
  s_assign s2 <> s_assign s1 /\ nltb (Num := NumF32) (s_cost s1) (lit 5) = true /\ nltb (Num := NumF32) (lit 100000000000000000) (s_cost s2) = true.
Proof. exact cost_raised. Qed.
Print Assumptions C34_cost_raised_refuted.

Example C34_example : (forall f, In f (mixed (N := NumR)) -> factor_ok f) /\ graph_make exSE mixed = Ok gmixed /\
  assigns exSE mixed (s_assign smixed) vmixed /\ (forall f, In f mixed -> residual_shape_ok exSE vmixed f) /\
  (forall f, In f mixed -> jacobian_shape_ok exSE vmixed f) /\ total residual_dim (mixed (N := NumR)) = 2%nat /\
  current exSE gmixed smixed /\ 0 < s_extra smixed + Rlit 1 100000 /\ 0 < lm_quality_min (lm_default (T := R) 100) /\
  (exists s', lm_step exSE (lm_default 100) cholmod_solve gmixed smixed = Ok s') /\
  trust_body (N := NumR) exSE cholmod_solve (lm_step exSE (lm_default 100) cholmod_solve) (lm_quality_min (lm_default 100)) /\
  exists A ATb, compute_whitened_residual_jacobian exSE gmixed (s_assign smixed) (s_res smixed) = Ok A /\
    matmul (transpose A) (vneg (s_res smixed)) = Ok ATb /\ ATb <> vzero (length ATb).
Proof. exact ex_lm_prediction. Qed.

Theorem C35_lambda_bounds :
  forall (E : env R) cfg lin g s0, 0 < lambda_min cfg -> lambda_min cfg <= lambda_max cfg -> 1 < lambda_factor cfg ->
  0 < lambda_initial cfg -> lambda_initial cfg <= lambda_max cfg -> s_extra s0 = lambda_initial cfg ->
  (forall k s, runs (lm_step E cfg lin g) k s0 s -> 0 < s_extra s <= lambda_max cfg) /\
  (forall s s', lm_step E cfg lin g s = Ok s' -> exists A d prop c r q, trust_step E g (lm_quality_min cfg) s s' A d prop c r q /\
     (lm_quality_min cfg <= q -> s_extra s' = s_extra s / lambda_factor cfg) /\
     (q < lm_quality_min cfg -> s_extra s' = Rmax (lambda_min cfg) (Rmin (s_extra s * lambda_factor cfg) (lambda_max cfg)) /\
        lambda_min cfg <= s_extra s' <= lambda_max cfg)).
Proof. exact lm_lambda_invariant. Qed.
Print Assumptions C35_lambda_bounds.

Theorem C35_lambda_min_refuted :
  exists (E : env f32) fs g s0 s7, graph_make E fs = Ok g /\
  s_extra s0 = lambda_initial (lm_default (N := NumF32) 100) /\ nltb (lambda_min (lm_default (N := NumF32) 100)) (s_extra s0) = true /\
  runs (lm_step (N := NumF32) E (lm_default 100) cholmod_solve g) 7 s0 s7 /\ nltb (s_extra s7) (lambda_min (lm_default (N := NumF32) 100)) = true.
Proof. exact lambda_below_min. Qed.
Print Assumptions C35_lambda_min_refuted.

Example C35_example : let cfg := lm_default (T := R) 100 in 0 < lambda_min cfg /\ lambda_min cfg <= lambda_max cfg /\ 1 < lambda_factor cfg /\
  0 < lambda_initial cfg /\ lambda_initial cfg <= lambda_max cfg /\ 0 < radius_initial (dl_default (T := R) 100).
Proof. exact ex_lm_params. Qed.

Theorem C36_dogleg_step :
  forall (A : coo R) rhs gn radius ATb Asd, coo_ok A -> length rhs = fst (m_shape A) -> length gn = snd (m_shape A) ->
  0 < radius -> matmul (transpose A) rhs = Ok ATb -> matmul A ATb = Ok Asd ->
  (ATb <> vzero (snd (m_shape A)) -> 0 < sumsq Asd /\
     forall t At, matmul A (vscale t ATb) = Ok At -> exists Aa, matmul A (vscale (sumsq ATb / sumsq Asd) ATb) = Ok Aa /\
       sumsq (vsub Aa rhs) <= sumsq (vsub At rhs)) /\
  (ATb <> vzero (snd (m_shape A)) \/ vnorm gn <= radius ->
   let a := vscale (sumsq ATb / sumsq Asd) ATb in
   let step := dogleg_step_of ATb Asd gn radius in
   let c := vdot a (vsub gn a) in
   let bma := sumsq (vsub gn a) in
   let k := radius * radius - sumsq a in
   vnorm step <= radius /\
   (vnorm gn <= radius -> step = gn) /\
   (radius < vnorm gn -> vnorm step = radius) /\
   (radius < vnorm gn -> radius <= vnorm a -> step = vscale (radius / vnorm a) a) /\
   (radius < vnorm gn -> vnorm a < radius -> exists beta, 0 < beta <= 1 /\ step = vadd a (vscale beta (vsub gn a)) /\
      beta = (- c + sqrt (c * c + bma * k)) / bma /\ beta = k / (c + sqrt (c * c + bma * k)))).
Proof. exact dogleg_in_region. Qed.
Print Assumptions C36_dogleg_step.

Example C36_example : coo_ok eye1 /\ length [2] = fst (m_shape eye1) /\ length [2] = snd (m_shape eye1) /\
  exists ATb Asd, matmul (transpose eye1) [2] = Ok ATb /\ matmul eye1 ATb = Ok Asd /\ ATb <> vzero (snd (m_shape eye1)) /\
    1 < vnorm [2].
Proof. exact ex_dogleg. Qed.

Theorem C36_step_taken :
  forall (E : env R) fs g val cfg lin s s', (forall f, In f fs -> factor_ok f) -> graph_make E fs = Ok g ->
  assigns E fs (s_assign s) val -> (forall f, In f fs -> jacobian_shape_ok E val f) -> total residual_dim fs <> 0%nat ->
  length (s_res s) = total residual_dim fs -> sized lin -> 0 < s_extra s ->
  dl_step E cfg lin g s = Ok s' ->
  exists A ATb gn Asd d prop c r q, trust_step E g (dl_quality_min cfg) s s' A d prop c r q /\
    matmul (transpose A) (vneg (s_res s)) = Ok ATb /\ lin A ATb 0 (s_iter s) = Ok gn /\ matmul A ATb = Ok Asd /\
    (ATb <> vzero (length ATb) \/ vnorm gn <= s_extra s ->
     let a := vscale (sumsq ATb / sumsq Asd) ATb in
     vnorm d <= s_extra s /\
     (vnorm gn <= s_extra s -> d = gn) /\
     (s_extra s < vnorm gn -> vnorm d = s_extra s) /\
     (s_extra s < vnorm gn -> s_extra s <= vnorm a -> d = vscale (s_extra s / vnorm a) a) /\
     (s_extra s < vnorm gn -> vnorm a < s_extra s -> exists beta, 0 < beta <= 1 /\ d = vadd a (vscale beta (vsub gn a)))).
Proof. exact dogleg_iteration. Qed.
Print Assumptions C36_step_taken.

Example C36_run_example : (forall f, In f (mixed (N := NumR)) -> factor_ok f) /\ graph_make exSE mixed = Ok gmixed /\
  assigns exSE mixed (s_assign smixed_dl) vmixed /\ (forall f, In f mixed -> jacobian_shape_ok exSE vmixed f) /\
  total residual_dim (mixed (N := NumR)) = 2%nat /\ length (s_res smixed_dl) = 2%nat /\ sized (cholmod_solve (T := R)) /\ 0 < s_extra smixed_dl /\
  exists s', dl_step exSE (dl_default 100) cholmod_solve gmixed smixed_dl = Ok s'.
Proof. exact ex_dogleg_run. Qed.

Theorem C37_radius :
  forall (E : env R) cfg lin g s0, 0 < radius_initial cfg -> s_extra s0 = radius_initial cfg ->
  (forall k s, runs (dl_step E cfg lin g) k s0 s -> 0 < s_extra s) /\
  (forall k s s', runs (dl_step E cfg lin g) k s0 s -> dl_step E cfg lin g s = Ok s' ->
     exists A d prop c r q, trust_step E g (dl_quality_min cfg) s s' A d prop c r q /\
     (q < 1 / 4 -> s_extra s' = s_extra s / 2) /\ (1 / 4 <= q -> s_extra s <= s_extra s') /\
     (1 / 4 <= q <= 3 / 4 -> s_extra s' = s_extra s) /\ (3 / 4 < q -> s_extra s' = Rmax (s_extra s) (3 * vnorm d))).
Proof. exact dogleg_radius_positive. Qed.
Print Assumptions C37_radius.

Example C37_example : 0 < radius_initial (dl_default (T := R) 100) /\ s_extra smixed_dl = radius_initial (dl_default (T := R) 100) /\
  exists s', dl_step exSE (dl_default 100) cholmod_solve gmixed smixed_dl = Ok s'.
Proof. exact ex_radius. Qed.

Theorem C38_convergence_meaning :
  forall (E : env R) cfg st cost' delta ng b, check_convergence E cfg st cost' delta ng = Ok b ->
  exists a', manifold_retract (e_cls E) (s_assign st) (mkAssign ng (as_layout delta)) = Ok a' /\
  (b = true <->
    Rabs (cost' - s_cost st) / s_cost st < cost_tolerance cfg \/
    ((gradient_start cfg <= Z.of_nat (s_iter st))%Z /\
     forall i, (i < length (as_storage (s_assign st)))%nat ->
       nth i (as_storage (s_assign st)) 0 - nth i (as_storage a') 0 < gradient_tolerance cfg) \/
    sqrt (sumsq (as_storage delta)) < (sqrt (sumsq (as_storage (s_assign st))) + parameter_tolerance cfg) * parameter_tolerance cfg).
Proof. exact convergence_meaning. Qed.
Print Assumptions C38_convergence_meaning.

Theorem C38_when_solvers_stop :
  forall (E : env R) lin g s s',
  (forall cfg, gn_step E cfg lin g s = Ok s' -> exists A ATr d,
     compute_whitened_residual_jacobian E g (s_assign s) (s_res s) = Ok A /\ matmul (transpose A) (s_res s) = Ok ATr /\
     lin A (vneg ATr) 0 (s_iter s) = Ok d /\
     manifold_retract (e_cls E) (s_assign s) (mkAssign d (g_local_layout g)) = Ok (s_assign s') /\
     (s_done s' = true <-> (max_iterations cfg <= Z.of_nat (s_iter s'))%Z \/
        converged E cfg s (g_local_layout g) (s_cost s') d (vneg ATr))) /\
  (forall cfg, lm_step E cfg lin g s = Ok s' -> exists A ATb d prop c r q,
     trust_step E g (lm_quality_min cfg) s s' A d prop c r q /\ matmul (transpose A) (vneg (s_res s)) = Ok ATb /\
     lin A ATb (s_extra s) (s_iter s) = Ok d /\
     (s_done s' = true <-> (max_iterations (lm_term cfg) <= Z.of_nat (s_iter s'))%Z \/
        (lm_quality_min cfg <= q /\ converged E (lm_term cfg) s (g_local_layout g) c d ATb))) /\
  (forall cfg, dl_step E cfg lin g s = Ok s' -> exists A ATb d prop c r q,
     trust_step E g (dl_quality_min cfg) s s' A d prop c r q /\ matmul (transpose A) (vneg (s_res s)) = Ok ATb /\
     (s_done s' = true <-> (max_iterations (dl_term cfg) <= Z.of_nat (s_iter s'))%Z \/
        (dl_quality_min cfg <= q /\ converged E (dl_term cfg) s (g_local_layout g) c d ATb))).
Proof. exact when_solvers_stop. Qed.
Print Assumptions C38_when_solvers_stop.

Theorem C38_infinity_norm_refuted :
  forall B : R, 0 < B -> exists (E : env R) st delta ng a',
  let cfg := term_default 100 in
  manifold_retract (e_cls E) (s_assign st) (mkAssign ng (as_layout delta)) = Ok a' /\
  check_convergence E cfg st (s_cost st + s_cost st) delta ng = Ok true /\
  converged_cost cfg st (s_cost st + s_cost st) = false /\ converged_parameters cfg st delta = false /\
  exists i, B < Rabs (nth i (as_storage (s_assign st)) 0 - nth i (as_storage a') 0).
Proof. exact gradient_not_inf_norm. Qed.
Print Assumptions C38_infinity_norm_refuted.

Theorem C38_premature_stop_refuted :
  exists (E : env f32) fs g init st st' a,
  graph_make E fs = Ok g /\ runs (gn_step (N := NumF32) E (term_default 100) cholmod_solve g) 10 (start (N := NumF32) g init n0) st /\
  gn_step (N := NumF32) E (term_default 100) cholmod_solve g st = Ok st' /\ s_done st' = true /\ s_iter st' = 11%nat /\
  gn_solve (N := NumF32) E 100 (term_default 100) cholmod_solve g init = Some (Ok a) /\ as_storage a = [lit (N := NumF32) (-512)] /\
  nltb (Num := NumF32) (lit 1000000000) (s_cost st') = true.
Proof. exact stops_far_away. Qed.
Print Assumptions C38_premature_stop_refuted.

Theorem C39_stationary :
  forall (E : env xr) g a c r x A init, stationary E g a c r x A ->
  update_storage_layout (e_cls E) init (g_layout g) = Ok a ->
  (forall cfg lmin lmax f l0 fuel, lambda_min cfg = Fin lmin -> lambda_max cfg = Fin lmax -> lambda_factor cfg = Fin f ->
     lambda_initial cfg = Fin l0 -> 0 < lmin -> 0 < l0 -> (iteration_cap (max_iterations (lm_term cfg)) <= fuel)%nat ->
     (exists l, runs (lm_step (N := NumXR) E cfg cholmod_solve g) (iteration_cap (max_iterations (lm_term cfg)))
        (mkState 0 a (Fin c) (finite r) false (Fin l0)) (mkState (iteration_cap (max_iterations (lm_term cfg))) a (Fin c) (finite r) true (Fin l))) /\
     lm_solve (N := NumXR) E fuel cfg cholmod_solve g init = Some (update_storage_layout (e_cls E) a (as_layout init))) /\
  (forall cfg r0 fuel, radius_initial cfg = Fin r0 -> 0 < r0 -> (iteration_cap (max_iterations (dl_term cfg)) <= fuel)%nat ->
     runs (dl_step (N := NumXR) E cfg cholmod_solve g) (iteration_cap (max_iterations (dl_term cfg)))
        (mkState 0 a (Fin c) (finite r) false (Fin r0)) (mkState (iteration_cap (max_iterations (dl_term cfg))) a (Fin c) (finite r) true (Fin r0)) /\
     dl_solve (N := NumXR) E fuel cfg cholmod_solve g init = Some (update_storage_layout (e_cls E) a (as_layout init))) /\
  (forall cfg p fuel, parameter_tolerance cfg = Fin p -> 0 < p -> (1 <= fuel)%nat ->
     runs (gn_step (N := NumXR) E cfg cholmod_solve g) 1
        (mkState 0 a (Fin c) (finite r) false (Fin 0)) (mkState 1 a (Fin c) (finite r) true (Fin 0)) /\
     gn_solve (N := NumXR) E fuel cfg cholmod_solve g init = Some (update_storage_layout (e_cls E) a (as_layout init))).
Proof. exact stationary_behaviour. Qed.
Print Assumptions C39_stationary.

Example C39_example : stationary exSE gX aX 2 [1; -1] [2] AX /\ update_storage_layout (N := NumXR) (e_cls exSE) aX (g_layout gX) = Ok aX /\
  iteration_cap (max_iterations (lm_term (lm_default (N := NumXR) 100))) = 100%nat.
Proof. exact ex_stationary. Qed.
End RealTheorems.
