(* Theorems C13-C20: factor graphs. *)
From Coq Require Import List Arith Bool ZArith Permutation Reals.
From Verif Require Import Num NumR NumF32 Py Arr MLayout MAssign MNoise MSparse MFactor MGraph SpecLayout SpecTree SpecAssign SpecGraph SpecSparse SpecDeriv.
From Verif Require Import PBase Ex ExG PExAssign PExGraph.
Import ListNotations.
Local Open Scope nat_scope.
#[local] Existing Instance NumF32.

Theorem C13_graph_partition :
  forall (T : Type) (E : env T) fs g,
  (forall f, In f fs -> factor_ok f) -> graph_make E fs = Ok g ->
  exists gs, groups_of fs gs /\ Permutation (concat gs) fs /\
    (forall f h, In f fs -> In h fs -> ((exists gr, In gr gs /\ In f gr /\ In h gr) <-> same_kind f h)) /\
    Forall2 stack_holds gs (g_stacks g) /\ g_residual_dim g = total residual_dim fs.
Proof. exact @graph_partition. Qed.
Print Assumptions C13_graph_partition.

Example C13_example : (forall f, In f (ex_factors (N := NumF32)) -> factor_ok f) /\
  exists g, graph_make (exE (N := NumF32)) ex_factors = Ok g /\ length (g_stacks g) = 3 /\ g_residual_dim g = 12 /\
    length (c_rows (g_coords g)) = 42.
Proof. exact (conj ex_factors_ok ex_graph). Qed.

Theorem C14_graph_construction :
  forall (T : Type) (E : env T) fs, (forall f, In f fs -> factor_ok f) ->
  ((exists f, In f fs /\ f_vars f <> []) ->
     exists g, graph_make E fs = Ok g /\
       l_local (g_layout g) = false /\ l_local (g_local_layout g) = true /\
       (forall L, L = g_layout g \/ L = g_local_layout g ->
         NoDup (get_variables L) /\ (forall v, In v (get_variables L) <-> exists f, In f fs /\ In v (f_vars f)) /\
         forall t, of_type t (get_variables L) = of_type t (mentioned fs)) /\
       l_dim (g_layout g) = total (vpdim (e_cls E)) (mentioned fs) /\
       l_dim (g_local_layout g) = total (vldim (e_cls E)) (mentioned fs)) /\
  ((forall f, In f fs -> f_vars f = []) -> graph_make E fs = Err TypeError).
Proof. exact @graph_construction. Qed.
Print Assumptions C14_graph_construction.

Example C14_example : (forall f, In f (ex_factors (N := NumF32)) -> factor_ok f) /\
  exists f, In f (ex_factors (N := NumF32)) /\ f_vars f <> [].
Proof. exact (conj ex_factors_ok ex_touches). Qed.

Theorem C15_residuals_per_factor :
  forall (T : Type) (N : Num T) (E : env T) fs g a val gs,
  (forall f, In f fs -> factor_ok f) -> graph_make E fs = Ok g -> groups_of fs gs ->
  assigns E fs a val -> (forall f, In f fs -> residual_shape_ok E val f) ->
  exists ws, Forall2 (fun f w => whitened_at E val f = Ok w /\ length w = residual_dim f) (concat gs) ws /\
    compute_whitened_residual_vector E g a = Ok (concat ws).
Proof. exact @residuals_per_factor. Qed.
Print Assumptions C15_residuals_per_factor.

Example C15_example : assigns (exE (N := NumF32)) ex_factors ex_assign ex_val /\
  (forall f, In f ex_factors -> residual_shape_ok (exE (N := NumF32)) ex_val f) /\
  exists g r A, graph_make (exE (N := NumF32)) ex_factors = Ok g /\
    compute_whitened_residual_vector (N := NumF32) exE g ex_assign = Ok r /\ length r = 12 /\ nth 0 r (n0 (Num := NumF32)) <> n0 (Num := NumF32) /\
    compute_whitened_residual_jacobian (N := NumF32) exE g ex_assign r = Ok A /\ length (m_vals A) = 42.
Proof. exact (conj ex_assigns (conj ex_residual_shapes ex_graph_values)). Qed.

Theorem C16_cost_per_factor :
  forall (E : env R) fs g, (forall f, In f fs -> factor_ok f) -> graph_make E fs = Ok g ->
  (forall a val, assigns E fs a val -> (forall f, In f fs -> residual_shape_ok E val f) ->
    exists r ws, compute_whitened_residual_vector E g a = Ok r /\ compute_cost E g a = Ok (sumsq r, r) /\
      Forall2 (fun f w => whitened_at E val f = Ok w) fs ws /\ sumsq r = vsum (map sumsq ws)) /\
  (forall fs' g' a a' val, Permutation fs fs' -> graph_make E fs' = Ok g' ->
    assigns E fs a val -> assigns E fs' a' val -> (forall f, In f fs -> residual_shape_ok E val f) ->
    exists c r r', compute_cost E g a = Ok (c, r) /\ compute_cost E g' a' = Ok (c, r') /\ Permutation r r').
Proof. exact cost_per_factor. Qed.
Print Assumptions C16_cost_per_factor.

Example C16_example : (forall f, In f (ex_lin (N := NumR)) -> factor_ok f) /\
  (exists g, graph_make exE (ex_lin (N := NumR)) = Ok g) /\ assigns exE (ex_lin (N := NumR)) ex_lina ex_linval /\
  (forall f, In f (ex_lin (N := NumR)) -> residual_shape_ok exE ex_linval f) /\
  assigns exE (rev (ex_lin (N := NumR))) ex_lina ex_linval.
Proof. exact ex_lin_cost. Qed.

Theorem C17_layout_independence :
  forall (T : Type) (N : Num T) (E : env T) fs g,
  classes_ok (e_cls E) -> (forall f, In f fs -> factor_ok f) -> graph_make E fs = Ok g ->
  (forall a1 a2 val r ln det, assigns E fs a1 val -> assigns E fs a2 val ->
    compute_whitened_residual_vector E g a1 = compute_whitened_residual_vector E g a2 /\
    compute_cost E g a1 = compute_cost E g a2 /\
    compute_joint_nll E ln det g a1 = compute_joint_nll E ln det g a2 /\
    compute_whitened_residual_jacobian E g a1 r = compute_whitened_residual_jacobian E g a2 r) /\
  (forall a vs local r ln det, wf_assign (e_cls E) vs local a -> ~ (forall v, In v vs <-> In v (mentioned fs)) ->
    compute_whitened_residual_vector E g a = Err AssertionError /\
    compute_cost E g a = Err AssertionError /\
    compute_joint_nll E ln det g a = Err AssertionError /\
    compute_whitened_residual_jacobian E g a r = Err AssertionError).
Proof. exact @evaluation_layout_independent. Qed.
Print Assumptions C17_layout_independence.

Example C17_example : classes_ok (exC (N := NumF32)) /\ assigns (exE (N := NumF32)) ex_factors ex_assign ex_val /\
  assigns (exE (N := NumF32)) ex_factors ex_assign' ex_val /\ as_storage ex_assign' <> as_storage ex_assign.
Proof. exact ex_two_layouts. Qed.

Theorem C18_jacobian_coordinates :
  forall (T : Type) (N : Num T) (E : env T) fs g,
  (forall f, In f fs -> factor_ok f) -> graph_make E fs = Ok g ->
  length (c_rows (g_coords g)) = length (c_cols (g_coords g)) /\
  Forall (fun rc => fst rc < g_residual_dim g /\ snd rc < l_dim (g_local_layout g))
         (combine (c_rows (g_coords g)) (c_cols (g_coords g))) /\
  (forall a val r, assigns E fs a val -> (forall f, In f fs -> jacobian_shape_ok E val f) ->
     length r = total residual_dim fs -> total residual_dim fs <> 0 ->
     exists A, compute_whitened_residual_jacobian E g a r = Ok A /\ m_coords A = g_coords g /\ coo_ok A) /\
  ((forall f, In f fs -> NoDup (f_vars f)) -> NoDup (combine (c_rows (g_coords g)) (c_cols (g_coords g)))) /\
  (forall f v, In f fs -> 2 <= count_occ eqb_dec (f_vars f) v -> 0 < residual_dim f -> 0 < vldim (e_cls E) v ->
     ~ NoDup (combine (c_rows (g_coords g)) (c_cols (g_coords g)))).
Proof. exact @jacobian_coordinates. Qed.
Print Assumptions C18_jacobian_coordinates.

Example C18_example : (forall f, In f (ex_factors (N := NumF32)) -> factor_ok f) /\
  (forall f, In f (ex_factors (N := NumF32)) -> NoDup (f_vars f)) /\
  (forall f, In f ex_factors -> jacobian_shape_ok (exE (N := NumF32)) ex_val f) /\
  assigns (exE (N := NumF32)) ex_factors ex_assign ex_val.
Proof. exact ex_coords. Qed.

Theorem C18_repeated_variable_refuted :
  exists (E : env f32) fs g, (forall f, In f fs -> factor_ok f) /\ graph_make E fs = Ok g /\
    ~ NoDup (combine (c_rows (g_coords g)) (c_cols (g_coords g))).
Proof. exact repeated_coords. Qed.
Print Assumptions C18_repeated_variable_refuted.

Theorem C19_jacobian_rows :
  forall (E : env R) fs g a val r gs,
  (forall f, In f fs -> factor_ok f) -> graph_make E fs = Ok g -> groups_of fs gs ->
  assigns E fs a val -> (forall f, In f fs -> jacobian_shape_ok E val f) ->
  length r = total residual_dim fs -> total residual_dim fs <> 0 ->
  exists A, compute_whitened_residual_jacobian E g a r = Ok A /\
    forall x, length x = l_dim (g_local_layout g) ->
    exists ys, matmul A x = Ok (concat ys) /\
      Forall2 (fun fo y => length y = residual_dim (fst fo) /\ exists Ws,
          whitened_jacobians_at E val (fst fo) (slice r (snd fo) (snd fo + residual_dim (fst fo))) = Ok Ws /\
          y = slots_times (e_cls E) (g_local_layout g) x (residual_dim (fst fo)) (f_vars (fst fo)) Ws)
        (place residual_dim 0 (concat gs)) ys.
Proof. exact jacobian_rows. Qed.
Print Assumptions C19_jacobian_rows.

Example C19_example : (forall f, In f (ex_lin (N := NumR) ++ [ex_twice]) -> factor_ok f) /\
  (exists g, graph_make exE (ex_lin (N := NumR) ++ [ex_twice]) = Ok g) /\
  assigns exE (ex_lin (N := NumR) ++ [ex_twice]) ex_lina ex_linval /\
  (forall f, In f (ex_lin (N := NumR) ++ [ex_twice]) -> jacobian_shape_ok exE ex_linval f) /\
  total residual_dim (ex_lin (N := NumR) ++ [ex_twice]) = 8.
Proof. exact ex_lin_rows. Qed.

Theorem C20_jacobian_is_derivative :
  forall (E : env R) fs g a vs r val x (valt : R -> var -> pytree R),
  classes_ok (e_cls E) -> (forall f, In f fs -> factor_ok f) -> graph_make E fs = Ok g ->
  wf_assign (e_cls E) vs false a -> (forall t, of_type t vs = of_type t (mentioned fs)) ->
  (forall v, In v vs -> get_value (e_cls E) a v = Ok (val v)) ->
  (forall f, In f fs -> jacobian_shape_ok E val f) -> (forall f, In f fs -> linear_noise (f_noise f)) ->
  length r = total residual_dim fs -> total residual_dim fs <> 0 ->
  length x = l_dim (g_local_layout g) ->
  (forall t v, In v vs ->
     retract (e_cls E (v_ty v)) (val v) (vscale t (block (e_cls E) (g_local_layout g) x v)) = Ok (valt t v) /\
     value_ok (e_cls E (v_ty v)) (valt t v)) ->
  (forall f, In f fs -> vderiv (fun t => residual_at E (valt t) f)
     (slots_times (e_cls E) (g_local_layout g) x (residual_dim f) (f_vars f) (jacobians_at E val f))) ->
  exists A y rt, compute_whitened_residual_jacobian E g a r = Ok A /\ matmul A x = Ok y /\
    (forall t, exists a', manifold_retract (e_cls E) a (mkAssign (vscale t x) (g_local_layout g)) = Ok a' /\
       compute_whitened_residual_vector E g a' = Ok (rt t)) /\
    vderiv rt y.
Proof. exact jacobian_is_derivative. Qed.
Print Assumptions C20_jacobian_is_derivative.

Example C20_example : exists g,
  classes_ok (exC (N := NumR)) /\ (forall f, In f (ex_lin (N := NumR)) -> factor_ok f) /\ graph_make (exE (N := NumR)) (ex_lin (N := NumR)) = Ok g /\
  wf_assign (exC (N := NumR)) ex_linvars false ex_lina /\ (forall t, of_type t ex_linvars = of_type t (mentioned (ex_lin (N := NumR)))) /\
  (forall v, In v ex_linvars -> get_value (exC (N := NumR)) ex_lina v = Ok (ex_linval v)) /\
  (forall f, In f (ex_lin (N := NumR)) -> jacobian_shape_ok (exE (N := NumR)) ex_linval f) /\ (forall f, In f (ex_lin (N := NumR)) -> linear_noise (f_noise f)) /\
  total residual_dim (ex_lin (N := NumR)) = 6%nat /\ length ex_linx = l_dim (g_local_layout g) /\
  (forall t v, In v ex_linvars -> retract ((exC (N := NumR)) (v_ty v)) (ex_linval v) (vscale t (block (exC (N := NumR)) (g_local_layout g) ex_linx v)) = Ok (ex_linvalt t v) /\
     value_ok ((exC (N := NumR)) (v_ty v)) (ex_linvalt t v)) /\
  (forall f, In f (ex_lin (N := NumR)) -> vderiv (fun t => residual_at (exE (N := NumR)) (ex_linvalt t) f)
     (slots_times (exC (N := NumR)) (g_local_layout g) ex_linx (residual_dim f) (f_vars f) (jacobians_at (exE (N := NumR)) ex_linval f))).
Proof. exact ex_lin_derivative. Qed.
