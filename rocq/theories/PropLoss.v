(* Theorem C71: the loss whose gradient the solvers follow. *)
From Coq Require Import List Arith Bool ZArith Reals.
From Verif Require Import Num NumR Py Arr MLayout MAssign MNoise MSparse MFactor MGraph MLinear MSolver.
From Verif Require Import SpecLayout SpecTree SpecAssign SpecGraph SpecSparse SpecDeriv SpecNoise SpecLoss.
From Verif Require Import Ex ExG ExS PExLoss.
Import ListNotations.
Local Open Scope R_scope.

Theorem C71_followed_gradient :
  forall (E : env R) fs g a vs val x (valt : R -> var -> pytree R),
  classes_ok (e_cls E) -> (forall f, In f fs -> factor_ok f) -> graph_make E fs = Ok g ->
  wf_assign (e_cls E) vs false a -> (forall t, of_type t vs = of_type t (mentioned fs)) ->
  (forall v, In v vs -> get_value (e_cls E) a v = Ok (val v)) ->
  (forall f, In f fs -> jacobian_shape_ok E val f) -> (forall f, In f fs -> robust_noise (f_noise f)) ->
  total residual_dim fs <> 0%nat -> length x = l_dim (g_local_layout g) ->
  (forall t v, In v vs -> retract (e_cls E (v_ty v)) (val v) (vscale t (block (e_cls E) (g_local_layout g) x v)) = Ok (valt t v) /\
     value_ok (e_cls E (v_ty v)) (valt t v)) ->
  (forall v, In v vs -> valt 0 v = val v) ->
  (forall f, In f fs -> vderiv (fun t => residual_at E (valt t) f)
     (slots_times (e_cls E) (g_local_layout g) x (residual_dim f) (f_vars f) (jacobians_at E val f))) ->
  exists r A grad, compute_whitened_residual_vector E g a = Ok r /\ compute_whitened_residual_jacobian E g a r = Ok A /\
    matmul (transpose A) r = Ok grad /\ length grad = l_dim (g_local_layout g) /\
    (forall t, exists a', manifold_retract (e_cls E) a (mkAssign (vscale t x) (g_local_layout g)) = Ok a' /\ assigns E fs a' (valt t)) /\
    derivable_pt_lim (fun t => total_loss E fs (valt t)) 0 (vdot grad x).
Proof. exact followed_gradient. Qed.
Print Assumptions C71_followed_gradient.

Theorem C71_loss_shape :
  forall delta, 0 < delta ->
  (forall n, n <= delta -> quarter_loss delta n = huber_loss delta n / 2) /\
  (forall n, delta < n -> huber_loss delta n / 2 < quarter_loss delta n < n * n / 2).
Proof. exact quarter_shape. Qed.
Print Assumptions C71_loss_shape.

Example C71_example : exists g,
  classes_ok (e_cls (exSE (T := R))) /\ (forall f, In f tug -> factor_ok f) /\ graph_make exSE tug = Ok g /\
  wf_assign (e_cls (exSE (T := R))) [vx] false (scalars [vx] [0]) /\ (forall t, of_type t [vx] = of_type t (mentioned tug)) /\
  (forall v, In v [vx] -> get_value (e_cls exSE) (scalars [vx] [0]) v = Ok (leaf1 [0])) /\
  (forall f, In f tug -> jacobian_shape_ok exSE (fun _ => leaf1 [0]) f) /\ (forall f, In f tug -> robust_noise (f_noise f)) /\
  total residual_dim tug = 2%nat /\ length [1] = l_dim (g_local_layout g) /\
  (forall t v, In v [vx] -> retract (e_cls exSE (v_ty v)) (leaf1 [0]) (vscale t (block (e_cls exSE) (g_local_layout g) [1] v)) = Ok (leaf1 [0 + t * 1]) /\
     value_ok (e_cls exSE (v_ty v)) (leaf1 [0 + t * 1])) /\
  (forall v : var, In v [vx] -> leaf1 [0 + 0 * 1] = leaf1 [0]) /\
  (forall f, In f tug -> vderiv (fun t => residual_at exSE (fun _ => leaf1 [0 + t * 1]) f)
     (slots_times (e_cls exSE) (g_local_layout g) [1] (residual_dim f) (f_vars f) (jacobians_at exSE (fun _ => leaf1 [0]) f))).
Proof. exact tug_example. Qed.

(* the followed loss is not the cost the solvers report: Gauss-Newton stays for ever at a start
   that another assignment beats *)
Theorem C71_minimises_cost_refuted :
  exists (E : env R) fs g init better val val' c c' r r',
  (forall f, In f fs -> factor_ok f /\ robust_noise (f_noise f)) /\ graph_make E fs = Ok g /\ assigns E fs init val /\ assigns E fs better val' /\
  compute_cost E g init = Ok (c, r) /\ compute_cost E g better = Ok (c', r') /\ c' < c /\
  (forall fuel cfg, 0 < cost_tolerance cfg -> (1 <= fuel)%nat -> gn_solve E fuel cfg cholmod_solve g init = Some (Ok init)) /\
  (forall fuel unroll it, (1 <= it)%Z -> (Z.to_nat it <= fuel)%nat -> fixed_solve E fuel unroll it cholmod_solve g init = Some (Ok init)).
Proof. exact stuck_above_cost. Qed.
Print Assumptions C71_minimises_cost_refuted.
