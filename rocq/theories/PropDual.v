(* C84: forward-mode differentiation of residual and retraction programs. *)
From Coq Require Import List Arith Bool Reals ZArith SpecFloat.
From Verif Require Import Num NumR NumF32 Py Arr MLayout MAssign MNoise MSparse MFactor MGraph MLinear MSolver MAuto MDual SpecLayout SpecTree SpecAssign SpecGraph SpecDeriv SpecOrder SpecInv SpecAuto SpecDual Ex ExG ExS PBase PDual2 PExDual.
Import ListNotations.
Local Open Scope R_scope.

Theorem C84_jvp : forall n x par e, smooth x par e ->
  (forall dx, fst (jvp real_funs x dx par e) = denote x par e) /\
  forall eps, 0 < eps -> exists d, 0 < d /\ forall y, (forall k, Rabs (y k - x k) < d) -> (forall k, (n <= k)%nat -> y k = x k) ->
    Rabs (denote y par e - denote x par e - vsum (map (fun k => jac_entry real_funs x par e k * (y k - x k)) (seq 0 n)))
    <= eps * vsum (map (fun k => Rabs (y k - x k)) (seq 0 n)).
Proof. exact jvp_is_derivative. Qed.
Print Assumptions C84_jvp.

Theorem C84_exact : forall C prog rprog fs g a vs r val x,
  let E := prog_env real_funs C prog rprog in
  classes_ok C -> (forall f, In f fs -> factor_ok f) -> graph_make E fs = Ok g ->
  wf_assign C vs false a -> (forall t, of_type t vs = of_type t (mentioned fs)) ->
  (forall v, In v vs -> get_value C a v = Ok (val v)) ->
  (forall f, In f fs -> linear_noise (f_noise f)) ->
  length r = total residual_dim fs -> length x = l_dim (g_local_layout g) ->
  (forall f, In f fs -> length (prog (f_cls f)) = residual_dim f /\ (0 < residual_dim f)%nat /\
     forall e, In e (prog (f_cls f)) -> smooth (fun k => nth k (flat (map val (f_vars f))) 0) (fun k => nth k (flat (f_params f)) 0) e) ->
  (forall v, In v vs -> leaves (val v) <> [] /\ (0 < local_dim (C (v_ty v)))%nat /\ retracts_by (C (v_ty v)) (rprog (v_ty v)) /\
     map (denote (fun _ => 0) (fun k => nth k (ravel (val v)) 0)) (rprog (v_ty v)) = ravel (val v) /\
     forall e, In e (rprog (v_ty v)) -> smooth (fun _ => 0) (fun k => nth k (ravel (val v)) 0) e) ->
  exists A y rt, compute_whitened_residual_jacobian E g a r = Ok A /\ matmul A x = Ok y /\
    (forall t, exists a', manifold_retract C a (mkAssign (vscale t x) (g_local_layout g)) = Ok a' /\
       compute_whitened_residual_vector E g a' = Ok (rt t)) /\
    vderiv rt y.
Proof. exact forward_exact. Qed.
Print Assumptions C84_exact.

Theorem C84_plain_variables : forall C prog fs g a vs r val x,
  let E := prog_env real_funs C prog (fun t => add_prog (param_dim (C t))) in
  classes_ok C -> (forall f, In f fs -> factor_ok f) -> graph_make E fs = Ok g ->
  wf_assign C vs false a -> (forall t, of_type t vs = of_type t (mentioned fs)) ->
  (forall v, In v vs -> get_value C a v = Ok (val v)) ->
  (forall f, In f fs -> linear_noise (f_noise f)) ->
  length r = total residual_dim fs -> length x = l_dim (g_local_layout g) ->
  (forall f, In f fs -> length (prog (f_cls f)) = residual_dim f /\ (0 < residual_dim f)%nat /\
     forall e, In e (prog (f_cls f)) -> smooth (fun k => nth k (flat (map val (f_vars f))) 0) (fun k => nth k (flat (f_params f)) 0) e) ->
  (forall v, In v vs -> plain_class (C (v_ty v)) /\ (0 < param_dim (C (v_ty v)))%nat) ->
  exists A y rt, compute_whitened_residual_jacobian E g a r = Ok A /\ matmul A x = Ok y /\
    (forall t, exists a', manifold_retract C a (mkAssign (vscale t x) (g_local_layout g)) = Ok a' /\
       compute_whitened_residual_vector E g a' = Ok (rt t)) /\
    vderiv rt y.
Proof. exact plain_forward_exact. Qed.
Print Assumptions C84_plain_variables.

Theorem C84_plain_retraction : forall c : vclass R, plain_class c -> tree_ok (vc_default c) -> retracts_by c (add_prog (param_dim c)) /\
  forall x, value_ok c x -> map (denote (fun _ => 0) (fun k => nth k (ravel x) 0)) (add_prog (param_dim c)) = ravel x /\
    forall e, In e (add_prog (param_dim c)) -> smooth (fun _ => 0) (fun k => nth k (ravel x) 0) e.
Proof. exact plain_retracts. Qed.
Print Assumptions C84_plain_retraction.

Theorem C84_well_posed : forall C prog rprog fs, classes_ok C -> fs <> [] -> (forall f, In f fs -> factor_ok f /\ length (prog (f_cls f)) = residual_dim f /\ (0 < residual_dim f)%nat /\ f_vars f <> []) ->
  (forall v, In v (mentioned fs) -> leaves (vc_default (C (v_ty v))) <> [] /\ (0 < param_dim (C (v_ty v)))%nat /\ (0 < local_dim (C (v_ty v)))%nat /\
     forall x d, value_ok (C (v_ty v)) x -> length d = local_dim (C (v_ty v)) -> exists y, retract (C (v_ty v)) x d = Ok y /\ value_ok (C (v_ty v)) y) ->
  well_posed (prog_env real_funs C prog rprog) fs.
Proof. exact program_posed. Qed.
Print Assumptions C84_well_posed.

Theorem C84_kinks : forall par, jac_entry real_funs (fun _ => 0) par (Abs (Inp 0)) 0 = 0 /\
  jac_entry real_funs (fun _ => 0) par (Max (Inp 0) (Lit 0 1)) 0 = 1 / 2 /\
  ~ exists l, derivable_pt_lim (fun t => denote (fun _ => t) par (Abs (Inp 0))) 0 l.
Proof. exact kinks_have_slopes. Qed.
Print Assumptions C84_kinks.

(* non-vacuity: a range measurement |p - (3, 4)| - 2 at p = (0, 0) *)
Example C84_case : let E := prog_env real_funs plane range_prog (fun t => add_prog (param_dim (plane t))) in
  exists g val, classes_ok plane /\ (forall f, In f [range_factor 3 4 2] -> factor_ok f) /\ graph_make E [range_factor 3 4 2] = Ok g /\
  wf_assign plane [vp] false (at_point 0 0) /\ (forall t, of_type t [vp] = of_type t (mentioned [range_factor 3 4 2])) /\
  (forall v, In v [vp] -> get_value plane (at_point 0 0) v = Ok (val v)) /\
  (forall f, In f [range_factor 3 4 2] -> linear_noise (f_noise f)) /\ total residual_dim [range_factor 3 4 2] = 1%nat /\ l_dim (g_local_layout g) = 2%nat /\
  (forall f, In f [range_factor 3 4 2] -> length (range_prog (f_cls f)) = residual_dim f /\ (0 < residual_dim f)%nat /\
     forall e, In e (range_prog (f_cls f)) -> smooth (fun k => nth k (flat (map val (f_vars f))) 0) (fun k => nth k (flat (f_params f)) 0) e) /\
  (forall v, In v [vp] -> plain_class (plane (v_ty v)) /\ (0 < param_dim (plane (v_ty v)))%nat).
Proof. exact range_case. Qed.

#[local] Existing Instance NumF32.
Theorem C84_not_smooth_refuted : exists (E : env f32) fs g init a c,
  E = prog_env no_funs plane range_prog (fun t => add_prog (param_dim (plane t))) /\ graph_make E fs = Ok g /\
  make_from_defaults (e_cls E) [vp] = Ok init /\ compute_cost E g init = Ok (lit 4, [lit (-2)]) /\
  compute_whitened_residual_jacobian E g init [lit (-2)] = Ok (mkCoo [S754_nan; S754_nan] c (1, 2)%nat) /\
  gn_solve E 100 (term_default 100) cholmod_solve g init = Some (Ok a) /\ as_storage a = [S754_nan; S754_nan] /\
  lm_solve E 100 (lm_default 100) cholmod_solve g init = Some (Ok init) /\ dl_solve E 100 (dl_default 100) cholmod_solve g init = Some (Ok init).
Proof. exact range_at_origin. Qed.
Print Assumptions C84_not_smooth_refuted.
