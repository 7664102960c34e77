(* Theorem C30: the order of factors and variables does not change the solution. *)
From Coq Require Import List Arith Bool ZArith Permutation Reals.
From Verif Require Import Num NumR NumF32 Py Arr MLayout MAssign MNoise MSparse MFactor MGraph MLinear MSolver SpecLayout SpecTree SpecAssign SpecGraph SpecSparse SpecSolver SpecOrder.
From Verif Require Import Ex ExG ExS POrder3 PExOrder.
Import ListNotations.
Local Open Scope R_scope.

Theorem C30_order_independent :
  forall (E : env R), classes_ok (e_cls E) ->
  forall fs fs' g g' init init' val solve fuel,
  (forall f, In f fs -> factor_ok f) -> Permutation fs fs' ->
  graph_make E fs = Ok g -> graph_make E fs' = Ok g' ->
  total residual_dim fs <> 0%nat -> well_shaped E fs ->
  assigns E fs init val -> assigns E fs init' val ->
  cholmod_solver E solve ->
  same_outcome E fs (solve fuel g init) (solve fuel g' init').
Proof. exact solve_order. Qed.
Print Assumptions C30_order_independent.

Theorem C30_fixed_order_independent :
  forall (E : env R), classes_ok (e_cls E) ->
  forall fs fs' g g' init init' val unroll it fuel,
  (forall f, In f fs -> factor_ok f) -> Permutation fs fs' ->
  graph_make E fs = Ok g -> graph_make E fs' = Ok g' ->
  total residual_dim fs <> 0%nat -> well_shaped E fs ->
  assigns E fs init val -> assigns E fs init' val ->
  same_layout (as_layout init) (g_layout g) -> same_layout (as_layout init') (g_layout g') ->
  same_outcome E fs (fixed_solve E fuel unroll it cholmod_solve g init) (fixed_solve E fuel unroll it cholmod_solve g' init').
Proof. exact fixed_order. Qed.
Print Assumptions C30_fixed_order_independent.

(* exact arithmetic is needed: binary32 sums depend on the order of the factors *)
#[local] Existing Instance NumF32.
Theorem C30_floats_refuted :
  exists (E : env f32) fs fs' g g' init a a' v, Permutation fs fs' /\ graph_make E fs = Ok g /\ graph_make E fs' = Ok g' /\
  gn_solve (N := NumF32) E 1 (term_default (N := NumF32) 1) cholmod_solve g init = Some (Ok a) /\
  gn_solve (N := NumF32) E 1 (term_default (N := NumF32) 1) cholmod_solve g' init = Some (Ok a') /\
  (exists x, get_value (e_cls E) a v = Ok x) /\ get_value (e_cls E) a v <> get_value (e_cls E) a' v.
Proof. exact floats_order. Qed.
Print Assumptions C30_floats_refuted.

Example C30_example : classes_ok (e_cls (exSE (N := NumR))) /\ (forall f, In f (quad (N := NumR)) -> factor_ok f) /\ Permutation (quad (N := NumR)) quad' /\
  graph_make exSE quad = Ok gquad /\ graph_make exSE quad' = Ok gquad' /\
  total residual_dim (quad (N := NumR)) = 4%nat /\ well_shaped (N := NumR) exSE quad /\
  assigns exSE quad (scalars [vx; vy] [2; 5]) vquad /\ assigns exSE quad (scalars [vy; vx] [5; 2]) vquad /\
  g_layout gquad <> g_layout gquad' /\ g_coords gquad <> g_coords gquad' /\
  cholmod_solver exSE (fun fuel => lm_solve exSE fuel (lm_default 1) cholmod_solve) /\
  exists a, gn_solve exSE 1 (term_default 1) cholmod_solve gquad (scalars [vx; vy] [2; 5]) = Some (Ok a).
Proof. exact ex_order. Qed.
