(* Theorem C79: which solves share one CHOLMOD analysis. *)
From Coq Require Import List Arith Bool ZArith Reals.
From Verif Require Import Num NumR Py Arr MLayout MAssign MNoise MSparse MFactor MGraph MMisc MJit SpecLayout SpecTree SpecAssign SpecGraph SpecJit.
From Verif Require Import PJit PJit2 Ex ExG ExS PExLin PExJit.
Import ListNotations.

Theorem C79_analysis_of_first_alike :
  forall (T : Type) (E : env T) (cs : list (call T)), (forall c, In c cs -> call_ok E c) ->
  forall i c, nth_error cs i = Some c ->
  exists j d, j <= i /\ nth_error cs j = Some d /\ calls_alike d c /\
    (forall k e, k < j -> nth_error cs k = Some e -> ~ calls_alike e c) /\
    nth_error (fst (jit_run cs jit0)) i = Some (Some (call_pattern d)).
Proof. exact @jit_analysis. Qed.
Print Assumptions C79_analysis_of_first_alike.

Theorem C79_own_analysis :
  forall (T : Type) (E : env T) (cs : list (call T)), (forall c, In c cs -> call_ok E c) ->
  forall i c, nth_error cs i = Some c ->
  (forall k e, k < i -> nth_error cs k = Some e -> calls_alike e c -> call_pattern e = call_pattern c) ->
  nth_error (fst (jit_run cs jit0)) i = Some (Some (call_pattern c)).
Proof. exact @jit_repeat. Qed.
Print Assumptions C79_own_analysis.

Theorem C79_objects_irrelevant :
  forall (T : Type) (cs : list (call T)) (obj : call T -> nat) s,
  jit_run (map (fun c => with_object (obj c) c) cs) s = jit_run cs s.
Proof. exact @jit_objects. Qed.
Print Assumptions C79_objects_irrelevant.

Theorem C79_alike_graphs :
  forall (T : Type) (E : env T) fs fs' g g',
  (forall f, In f fs -> factor_ok f) -> (forall f, In f fs' -> factor_ok f) ->
  Forall2 same_kind fs fs' -> mentioned fs = mentioned fs' ->
  graph_make E fs = Ok g -> graph_make E fs' = Ok g' -> graphs_alike g g'.
Proof. exact @alike_graphs. Qed.
Print Assumptions C79_alike_graphs.

Theorem C79_same_connections :
  forall (T : Type) (E : env T) fs fs' g g',
  (forall f, In f fs -> factor_ok f) -> (forall f, In f fs' -> factor_ok f) ->
  Forall2 (fun f f' => same_kind f f' /\ f_vars f = f_vars f') fs fs' ->
  graph_make E fs = Ok g -> graph_make E fs' = Ok g' -> graphs_alike g g' /\ g_coords g = g_coords g'.
Proof. exact @alike_coords. Qed.
Print Assumptions C79_same_connections.

Theorem C79_fresh_solver_refuted :
  exists (E : env R) fs fs' g g' a,
  (forall f, In f fs -> factor_ok f) /\ (forall f, In f fs' -> factor_ok f) /\
  graph_make E fs = Ok g /\ graph_make E fs' = Ok g' /\ wf_assign (e_cls E) (mentioned fs) false a /\ mentioned fs' = mentioned fs /\
  call_pattern (mkCall 1 0 g' a) <> call_pattern (mkCall 0 0 g a) /\
  fst (jit_run [mkCall 0 0 g a; mkCall 1 0 g' a] jit0) = [Some (call_pattern (mkCall 0 0 g a)); Some (call_pattern (mkCall 0 0 g a))].
Proof. exact jit_shared. Qed.
Print Assumptions C79_fresh_solver_refuted.

(* new measurements, another solver object *)
Example C79_example :
  Forall2 (fun f f' => same_kind f f' /\ f_vars f = f_vars f') (tied vx vy 1 2 3 4) (tied vx vy 5 6 7 8) /\
  call_ok exLE (solve_with 0 (tied vx vy 1 2 3 4)) /\ call_ok exLE (solve_with 1 (tied vx vy 5 6 7 8)) /\
  call_pattern (solve_with 0 (tied vx vy 1 2 3 4)) = (3, 4, [(0, 0); (1, 1); (2, 2); (0, 3); (1, 3)]).
Proof. exact jit_remeasured. Qed.
(* another graph is not alike *)
Example C79_example_distinct : ~ calls_alike (solve_with 0 (tied vx vy 1 2 3 4)) (solve_with 0 [anchor vx 1; anchor vy 2]).
Proof. exact jit_other_key. Qed.
