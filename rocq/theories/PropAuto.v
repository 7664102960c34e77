(* Theorem C64: the default Jacobians. *)
From Coq Require Import List Arith Bool Reals.
From Verif Require Import Num NumR Py Arr MLayout MAssign MNoise MSparse MFactor MGraph MAuto SpecLayout SpecTree SpecAssign SpecGraph SpecDeriv SpecAuto.
From Verif Require Import PBase PExAuto.
Import ListNotations.
Local Open Scope nat_scope.

Theorem C64_default_jacobians :
  forall (T : Type) (N : Num T) (E : env T) (AD : autodiff T) fd vals, auto_ok E AD fd vals ->
  exists Js, default_jacobians E AD fd vals = Ok Js /\ length Js = length (fd_types fd) /\
  forall i t x D J, nth_error (fd_types fd) i = Some t -> nth_error vals i = Some x ->
    nth_error (ad_residual AD fd vals) i = Some D -> nth_error Js i = Some J ->
    length J = noise_dim (fd_noise fd) /\ Forall (fun row => length row = local_dim (e_cls E t)) J /\
    forall r c, r < noise_dim (fd_noise fd) -> c < local_dim (e_cls E t) ->
      nth c (nth r J []) n0 = composed (length (ravel x)) D (local_dim (e_cls E t)) (ad_retract AD t x) r c.
Proof. exact @default_entries. Qed.
Print Assumptions C64_default_jacobians.

Theorem C64_is_derivative :
  forall (E : env R) (AD : autodiff R) fs g a vs r val x (valt : R -> var -> pytree R),
  classes_ok (e_cls E) -> (forall f, In f fs -> factor_ok f) -> graph_make E fs = Ok g ->
  wf_assign (e_cls E) vs false a -> (forall t, of_type t vs = of_type t (mentioned fs)) ->
  (forall v, In v vs -> get_value (e_cls E) a v = Ok (val v)) ->
  (forall f, In f fs -> linear_noise (f_noise f)) ->
  length r = total residual_dim fs -> length x = l_dim (g_local_layout g) -> total residual_dim fs <> 0 ->
  (forall f, In f fs -> auto_ok E AD (anonymize f) (map val (f_vars f)) /\
     default_jacobians E AD (anonymize f) (map val (f_vars f)) = Ok (jacobians_at E val f) /\
     residual_derivative (Forall2 (fun t x => value_ok (e_cls E t) x) (map v_ty (f_vars f))) (e_res E (anonymize f)) (residual_dim f)
       (map val (f_vars f)) (ad_residual AD (anonymize f) (map val (f_vars f)))) ->
  (forall v, In v vs -> retract_derivative (e_cls E (v_ty v)) (val v) (ad_retract AD (v_ty v) (val v))) ->
  (forall t v, In v vs -> retract (e_cls E (v_ty v)) (val v) (vscale t (block (e_cls E) (g_local_layout g) x v)) = Ok (valt t v) /\
     value_ok (e_cls E (v_ty v)) (valt t v)) ->
  exists A y rt, compute_whitened_residual_jacobian E g a r = Ok A /\ matmul A x = Ok y /\
    (forall t, exists a', manifold_retract (e_cls E) a (mkAssign (vscale t x) (g_local_layout g)) = Ok a' /\
       compute_whitened_residual_vector E g a' = Ok (rt t)) /\
    vderiv rt y.
Proof. exact default_graph_derivative. Qed.
Print Assumptions C64_is_derivative.

Theorem C64_not_overridden :
  forall (C : cenv (T := R)) res (AD : autodiff R) fs g a vs r val x (valt : R -> var -> pytree R),
  let E := auto_env C res AD in
  classes_ok C -> (forall f, In f fs -> factor_ok f) -> graph_make E fs = Ok g ->
  wf_assign C vs false a -> (forall t, of_type t vs = of_type t (mentioned fs)) ->
  (forall v, In v vs -> get_value C a v = Ok (val v)) ->
  (forall f, In f fs -> linear_noise (f_noise f)) ->
  length r = total residual_dim fs -> length x = l_dim (g_local_layout g) -> total residual_dim fs <> 0 ->
  (forall f, In f fs -> auto_ok E AD (anonymize f) (map val (f_vars f)) /\
     residual_derivative (Forall2 (fun t x => value_ok (C t) x) (map v_ty (f_vars f))) (res (anonymize f)) (residual_dim f)
       (map val (f_vars f)) (ad_residual AD (anonymize f) (map val (f_vars f)))) ->
  (forall v, In v vs -> retract_derivative (C (v_ty v)) (val v) (ad_retract AD (v_ty v) (val v))) ->
  (forall t v, In v vs -> retract (C (v_ty v)) (val v) (vscale t (block C (g_local_layout g) x v)) = Ok (valt t v) /\
     value_ok (C (v_ty v)) (valt t v)) ->
  (forall f i t y D J, In f fs -> nth_error (map v_ty (f_vars f)) i = Some t -> nth_error (map val (f_vars f)) i = Some y ->
     nth_error (ad_residual AD (anonymize f) (map val (f_vars f))) i = Some D -> nth_error (jacobians_at E val f) i = Some J ->
     forall k c, k < residual_dim f -> c < local_dim (C t) ->
       nth c (nth k J []) n0 = composed (length (ravel y)) D (local_dim (C t)) (ad_retract AD t y) k c) /\
  exists A y rt, compute_whitened_residual_jacobian E g a r = Ok A /\ matmul A x = Ok y /\
    (forall t, exists a', manifold_retract C a (mkAssign (vscale t x) (g_local_layout g)) = Ok a' /\
       compute_whitened_residual_vector E g a' = Ok (rt t)) /\
    vderiv rt y.
Proof. exact not_overridden. Qed.
Print Assumptions C64_not_overridden.

Theorem C64_plain_classes :
  forall (c : vclass R) x K, plain_class c -> tree_ok (vc_default c) -> value_ok c x ->
  (retract_derivative c x K <-> forall k j, k < length (ravel x) -> j < length (ravel x) ->
     along (length (ravel x)) K k j = if Nat.eqb k j then 1%R else 0%R) /\
  (retract_derivative c x K -> forall D r j, j < length (ravel x) ->
     composed (length (ravel x)) D (local_dim c) K r j = partial (leaves D) r j).
Proof. exact plain_jacobian. Qed.
Print Assumptions C64_plain_classes.

Theorem C64_guards :
  forall (T : Type) (N : Num T) (E : env T) (AD : autodiff T) fd vals Js, default_jacobians E AD fd vals = Ok Js ->
  forall i t x D L, nth_error (fd_types fd) i = Some t -> nth_error vals i = Some x -> nth_error (ad_residual AD fd vals) i = Some D ->
    residual_arrays L x D -> 0 < local_dim (e_cls E t) -> retract_arrays (local_dim (e_cls E t)) x (ad_retract AD t x) ->
    leaves x <> [] /\ (0 < scalars x -> L = noise_dim (fd_noise fd)).
Proof. exact @default_guards. Qed.
Print Assumptions C64_guards.

Example C64_example : exists g,
  classes_ok (e_cls auE) /\ (forall f, In f [au_factor] -> factor_ok f) /\ graph_make auE [au_factor] = Ok g /\
  wf_assign (e_cls auE) [vu; vw] false au_assign /\ (forall t, of_type t [vu; vw] = of_type t (mentioned [au_factor])) /\
  (forall v, In v [vu; vw] -> get_value (e_cls auE) au_assign v = Ok (au_val v)) /\
  (forall f, In f [au_factor] -> linear_noise (f_noise f)) /\
  total residual_dim [au_factor] = 2 /\ length au_x = l_dim (g_local_layout g) /\
  (forall f, In f [au_factor] -> auto_ok auE auAD (anonymize f) (map au_val (f_vars f)) /\
     default_jacobians auE auAD (anonymize f) (map au_val (f_vars f)) = Ok (jacobians_at auE au_val f) /\
     residual_derivative (Forall2 (fun t x => value_ok (e_cls auE t) x) (map v_ty (f_vars f))) (e_res auE (anonymize f)) (residual_dim f)
       (map au_val (f_vars f)) (ad_residual auAD (anonymize f) (map au_val (f_vars f)))) /\
  (forall v, In v [vu; vw] -> retract_derivative (e_cls auE (v_ty v)) (au_val v) (ad_retract auAD (v_ty v) (au_val v))) /\
  (forall t v, In v [vu; vw] -> retract (e_cls auE (v_ty v)) (au_val v) (vscale t (block (e_cls auE) (g_local_layout g) au_x v)) = Ok (au_valt t v) /\
     value_ok (e_cls auE (v_ty v)) (au_valt t v)).
Proof. exact au_example. Qed.
