(* Theorem C78: the solvers see a problem only through the information it carries. *)
From Coq Require Import List Arith Bool ZArith Permutation Reals.
From Verif Require Import Num NumR Py Arr MLayout MAssign MNoise MSparse MFactor MGraph MLinear MSolver SpecLayout SpecTree SpecAssign SpecGraph SpecSparse SpecNoise SpecDeriv SpecOrder SpecTwin.
From Verif Require Import Ex ExG ExS PExDescent PTwin PTwin2 PExTwin.
Import ListNotations.
Local Open Scope R_scope.

(* Gauss-Newton, Levenberg-Marquardt and Dogleg, with CHOLMOD or conjugate gradients, from the
   same values: same outcome *)
Theorem C78_solve :
  forall (E : env R), classes_ok (e_cls E) ->
  forall fs fs' g g' init init' val solve fuel,
  (forall f, In f fs -> factor_ok f) -> (forall f, In f fs' -> factor_ok f) -> no_repeats fs -> no_repeats fs' ->
  same_information E fs fs' ->
  graph_make E fs = Ok g -> graph_make E fs' = Ok g' ->
  total residual_dim fs <> 0%nat -> total residual_dim fs' <> 0%nat -> well_shaped E fs -> well_shaped E fs' ->
  assigns E fs init val -> assigns E fs init' val ->
  library_solver E solve ->
  same_outcome E fs (solve fuel g init) (solve fuel g' init').
Proof. exact solve_twin. Qed.
Print Assumptions C78_solve.

(* the fixed-iteration solver *)
Theorem C78_fixed :
  forall (E : env R), classes_ok (e_cls E) ->
  forall fs fs' g g' init init' val unroll it fuel lin,
  (forall f, In f fs -> factor_ok f) -> (forall f, In f fs' -> factor_ok f) -> no_repeats fs -> no_repeats fs' ->
  same_information E fs fs' ->
  graph_make E fs = Ok g -> graph_make E fs' = Ok g' ->
  total residual_dim fs <> 0%nat -> total residual_dim fs' <> 0%nat -> well_shaped E fs -> well_shaped E fs' ->
  assigns E fs init val -> assigns E fs init' val ->
  same_layout (as_layout init) (g_layout g) -> same_layout (as_layout init') (g_layout g') ->
  library_linear lin ->
  same_outcome E fs (fixed_solve E fuel unroll it lin g init) (fixed_solve E fuel unroll it lin g' init').
Proof. exact fixed_twin. Qed.
Print Assumptions C78_fixed.

(* what carries the same information: reorderings, and parts that do *)
Theorem C78_closed :
  forall (E : env R),
  (forall fs, same_information E fs fs) /\
  (forall fs fs', same_information E fs fs' -> same_information E fs' fs) /\
  (forall fs1 fs2 fs3, same_information E fs1 fs2 -> same_information E fs2 fs3 -> same_information E fs1 fs3) /\
  (forall fs fs', Permutation fs fs' -> same_information E fs fs') /\
  (forall a a' b b', same_information E a a' -> same_information E b b' -> same_information E (a ++ b) (a' ++ b')).
Proof. exact info_closed. Qed.
Print Assumptions C78_closed.

(* ... noise models with the same precision matrix, whatever the class and the square root *)
Theorem C78_noise :
  forall (E : env R) fs fs', (forall f, In f fs -> factor_ok f) -> (forall f, In f fs' -> factor_ok f) -> well_shaped E fs ->
  Forall2 (same_factor E) fs fs' -> same_information E fs fs'.
Proof. exact info_factors. Qed.
Print Assumptions C78_noise.

(* ... a factor split into two whose precisions add up *)
Theorem C78_split :
  forall (E : env R) pre f f1 f2 post,
  (forall h, In h (pre ++ f :: post) -> factor_ok h) -> factor_ok f1 -> factor_ok f2 -> well_shaped E (pre ++ f :: post) ->
  split_factor E f f1 f2 -> same_information E (pre ++ f :: post) (pre ++ f1 :: f2 :: post).
Proof. exact info_split. Qed.
Print Assumptions C78_split.

(* the same cost function is not enough *)
Theorem C78_cost_only_refuted :
  exists (E : env R) fs fs' g g' init val a a' v,
  (forall w, In w (mentioned fs) <-> In w (mentioned fs')) /\ graph_make E fs = Ok g /\ graph_make E fs' = Ok g' /\ well_shaped E fs /\ well_shaped E fs' /\
  (forall b valb, assigns E fs b valb -> exists c r r', compute_cost E g b = Ok (c, r) /\ compute_cost E g' b = Ok (c, r')) /\
  assigns E fs init val /\
  gn_solve E 1 (term_default 1) cholmod_solve g init = Some (Ok a) /\ gn_solve E 1 (term_default 1) cholmod_solve g' init = Some (Ok a') /\
  get_value (e_cls E) a v <> get_value (e_cls E) a' v.
Proof. exact cost_only. Qed.
Print Assumptions C78_cost_only_refuted.

Example C78_example : classes_ok (e_cls (exSE (N := NumR))) /\ (forall f, In f tri -> factor_ok f) /\ (forall f, In f tri' -> factor_ok f) /\
  no_repeats tri /\ no_repeats tri' /\ same_information exSE tri tri' /\ (forall f, In f tri -> ~ In f tri') /\
  graph_make exSE tri = Ok (graph_of tri) /\ graph_make exSE tri' = Ok (graph_of tri') /\
  total residual_dim tri = 3%nat /\ total residual_dim tri' = 3%nat /\ well_shaped exSE tri /\ well_shaped exSE tri' /\
  assigns exSE tri (scalars [vx] [2]) (const_of 2) /\
  library_solver exSE (fun fuel => dl_solve exSE fuel (dl_default 100) (inexact_cg_solver (1/10))).
Proof. exact twin_example. Qed.
Example C78_noise_example : same_factor exE (between 10 va vc (huber2 (dg2 5 5)) [1; 2]) (between 10 va vc (huber2 (gs2 3 4 (-4) 3)) [1; 2]) /\
  factor_ok (between 10 va vc (huber2 (dg2 5 5)) [1; 2]) /\ factor_ok (between 10 va vc (huber2 (gs2 3 4 (-4) 3)) [1; 2]).
Proof. exact noise_example. Qed.
Example C78_split_example : split_factor exSE (weighted 5) (weighted 3) (weighted 4) /\ split_factor exSE (weighted 5) (weighted 5) (weighted 0) /\ (forall c, factor_ok (weighted c)).
Proof. exact split_example. Qed.
