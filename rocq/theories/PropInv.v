(* Theorems C61, C62: invariants of the variable values; solve() does not raise. *)
From Coq Require Import List Arith Bool ZArith Reals.
From Verif Require Import Num NumR NumF32 Py Arr MLayout MAssign MNoise MSparse MFactor MGraph MLinear MSolver MLie MPose SpecLayout SpecTree SpecAssign SpecGraph SpecSparse SpecSolver SpecOrder SpecLie SpecInv SpecPose.
From Verif Require Import Ex ExG ExS PInv PExInv.
Import ListNotations.

Theorem C61_values_keep_invariants :
  forall (T : Type) (N : Num T) (E : env T) (fs : list (factor T)) g lin step extra solve (Q : var -> pytree T -> Prop),
  classes_ok (e_cls E) -> (forall f, In f fs -> factor_ok f) -> graph_make E fs = Ok g ->
  nonlinear_solver E lin step extra solve -> sized lin -> preserved E fs Q ->
  forall init vs, wf_assign (e_cls E) vs false init -> all_values E Q vs init ->
  (forall fuel a', solve fuel g init = Some (Ok a') -> all_values E Q vs a') /\
  (forall a c r k st, update_storage_layout (e_cls E) init (g_layout g) = Ok a -> compute_cost E g a = Ok (c, r) ->
     runs (step g) k (mkState 0 a c r false extra) st -> all_values E Q vs (s_assign st)).
Proof. exact @solve_invariant. Qed.
Print Assumptions C61_values_keep_invariants.

Theorem C61_fixed_iteration :
  forall (T : Type) (N : Num T) (E : env T) (fs : list (factor T)) g lin (Q : var -> pytree T -> Prop),
  classes_ok (e_cls E) -> (forall f, In f fs -> factor_ok f) -> graph_make E fs = Ok g -> sized lin -> preserved E fs Q ->
  forall init vs fuel unroll it a', wf_assign (e_cls E) vs false init -> same_layout (as_layout init) (g_layout g) -> all_values E Q vs init ->
  fixed_solve E fuel unroll it lin g init = Some (Ok a') -> all_values E Q vs a'.
Proof. exact @fixed_invariant. Qed.
Print Assumptions C61_fixed_iteration.

Theorem C61_rotation_norms_never_change :
  forall groups (fs : list (factor R)) g lin step extra solve,
  (forall v, In v (mentioned fs) -> planar (groups (v_ty v)) \/ spatial (groups (v_ty v))) ->
  (forall f, In f fs -> factor_ok f) -> graph_make (pose_env groups) fs = Ok g -> sized lin ->
  nonlinear_solver (pose_env groups) lin step extra solve ->
  forall init vs fuel a', wf_assign (lie_class groups) vs false init -> solve fuel g init = Some (Ok a') ->
  forall v, In v vs -> exists x x', get_value (lie_class groups) init v = Ok x /\ get_value (lie_class groups) a' v = Ok x' /\
    (planar (groups (v_ty v)) -> norm2 (params x') = norm2 (params x)) /\
    (spatial (groups (v_ty v)) -> norm4 (params x') = norm4 (params x)).
Proof. exact norms_frozen. Qed.
Print Assumptions C61_rotation_norms_never_change.

Example C61_example : exists g a' x, graph_make (pose_env ex_groups) ex_poses = Ok g /\
  lm_solve (pose_env ex_groups) 10 (lm_default 10) cholmod_solve g ex_start = Some (Ok a') /\
  get_value (lie_class ex_groups) a' pa = Ok x /\ norm2 (params x) = 1%R.
Proof. exact ex_frozen. Qed.

Theorem C62_solve_never_raises :
  forall (T : Type) (N : Num T) (E : env T) (fs : list (factor T)), well_posed E fs ->
  exists g, graph_make E fs = Ok g /\
  forall lin step extra solve, total_solver lin -> nonlinear_solver E lin step extra solve ->
  forall init val, assigns E fs init val ->
  (forall fuel e, solve fuel g init <> Some (Err e)) /\
  (exists k, forall fuel, k <= fuel -> exists a' val', solve fuel g init = Some (Ok a') /\ assigns E fs a' val').
Proof. exact @never_raises. Qed.
Print Assumptions C62_solve_never_raises.

Theorem C62_fixed_iteration :
  forall (T : Type) (N : Num T) (E : env T) (fs : list (factor T)) g lin init val,
  well_posed E fs -> graph_make E fs = Ok g -> total_solver lin ->
  assigns E fs init val -> same_layout (as_layout init) (g_layout g) ->
  (forall fuel unroll it e, fixed_solve E fuel unroll it lin g init <> Some (Err e)) /\
  (forall fuel unroll it, (1 <= it)%Z -> Z.to_nat it <= fuel -> exists a' val', fixed_solve E fuel unroll it lin g init = Some (Ok a') /\ assigns E fs a' val').
Proof. exact @fixed_never_raises. Qed.
Print Assumptions C62_fixed_iteration.

Theorem C62_linear_solvers :
  forall (T : Type) (N : Num T), total_solver (cholmod_solve (T := T)) /\ (forall tol, total_solver (cg_solve (T := T) tol)) /\
  sized (cholmod_solve (T := T)) /\ (forall tol, sized (cg_solve (T := T) tol)).
Proof. exact @linear_total. Qed.
Print Assumptions C62_linear_solvers.

Theorem C62_pose_graphs :
  forall groups fs, (forall f, In f fs -> pose_factor groups f) ->
  (forall v, In v (mentioned fs) -> planar (groups (v_ty v)) \/ spatial (groups (v_ty v))) -> fs <> [] ->
  well_posed (pose_env groups) fs.
Proof. exact pose_graphs. Qed.
Print Assumptions C62_pose_graphs.

Theorem C62_without_parameters_refuted :
  exists (E : env f32) f g init val,
  classes_ok (e_cls E) /\ factor_ok f /\ well_shaped (N := NumF32) E [f] /\ residual_dim f = 1 /\ graph_make E [f] = Ok g /\ assigns E [f] init val /\
  gn_solve (N := NumF32) E 5 (term_default (N := NumF32) 5) (conjugate_gradient_solver (N := NumF32) (n1 (Num := NumF32))) g init = Some (Err ValueError) /\
  exists a, fixed_solve (N := NumF32) E 5 true 5 (conjugate_gradient_solver (N := NumF32) (n1 (Num := NumF32))) g init = Some (Ok a).
Proof. exact needs_parameter. Qed.
Print Assumptions C62_without_parameters_refuted.

Theorem C62_without_residuals_refuted :
  exists (E : env f32) f g init val,
  classes_ok (e_cls E) /\ factor_ok f /\ well_shaped (N := NumF32) E [f] /\ vpdim (e_cls E) (mkVar 0 0) = 1 /\ graph_make E [f] = Ok g /\ assigns E [f] init val /\
  gn_solve (N := NumF32) E 5 (term_default (N := NumF32) 5) (cholmod_solve (N := NumF32)) g init = Some (Err AssertionError).
Proof. exact needs_residual. Qed.
Print Assumptions C62_without_residuals_refuted.

Example C62_example : (forall f, In f ex_poses -> pose_factor ex_groups f) /\ 
  (forall v, In v (mentioned ex_poses) -> planar (ex_groups (v_ty v)) \/ spatial (ex_groups (v_ty v))) /\
  wf_assign (lie_class ex_groups) [pa; pb] false ex_start /\
  assigns (pose_env ex_groups) ex_poses ex_start (fun v => if eqb v pa then group_value 0 [3/5; 4/5; 1; 2]%R else group_value 0 [2; 0; 0; 0]%R).
Proof. exact ex_pose_ok. Qed.
