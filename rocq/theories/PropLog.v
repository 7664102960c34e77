(* What the solvers print. *)
From Coq Require Import List Arith Bool ZArith.
From Verif Require Import Num NumF32 Py Arr MLayout MAssign MNoise MSparse MFactor MGraph MLinear MSolver MLog SpecLayout SpecTree SpecAssign SpecGraph SpecSolver SpecLog Ex ExG ExS PExSolver PExLog.
Import ListNotations.

Theorem C90_transparent : forall (T : Type) (N : Num T) (E : env T) verbose fuel lin g init,
  (forall cfg, result_of (gn_logged E verbose fuel cfg lin g init) = gn_solve E fuel cfg lin g init) /\
  (forall cfg, result_of (lm_logged E verbose fuel cfg lin g init) = lm_solve E fuel cfg lin g init) /\
  (forall cfg, result_of (dl_logged E verbose fuel cfg lin g init) = dl_solve E fuel cfg lin g init) /\
  (forall unroll it, result_of (fixed_logged E verbose fuel unroll it lin g init) = fixed_solve E fuel unroll it lin g init).
Proof. exact transparent. Qed.
Print Assumptions C90_transparent.

Theorem C90_silent : forall (T : Type) (N : Num T) (E : env T) verbose fuel lin g init r ms, verbose = false \/ (exists e, r = Err e) ->
  (forall cfg, gn_logged E verbose fuel cfg lin g init = Some (r, ms) -> ms = []) /\
  (forall cfg, lm_logged E verbose fuel cfg lin g init = Some (r, ms) -> ms = []) /\
  (forall cfg, dl_logged E verbose fuel cfg lin g init = Some (r, ms) -> ms = []) /\
  (forall unroll it, fixed_logged E verbose fuel unroll it lin g init = Some (r, ms) -> ms = []).
Proof. exact silent. Qed.
Print Assumptions C90_silent.

Theorem C90_report : forall (T : Type) (N : Num T) (E : env T) fuel lin g init a' ms,
  (forall cfg, gn_logged E true fuel cfg lin g init = Some (Ok a', ms) -> reported E (gn_step E cfg lin) n0 (max_iterations cfg) false g init a' ms) /\
  (forall cfg, lm_logged E true fuel cfg lin g init = Some (Ok a', ms) -> reported E (lm_step E cfg lin) (lambda_initial cfg) (max_iterations (lm_term cfg)) true g init a' ms) /\
  (forall cfg, dl_logged E true fuel cfg lin g init = Some (Ok a', ms) -> reported E (dl_step E cfg lin) (radius_initial cfg) (max_iterations (dl_term cfg)) true g init a' ms).
Proof. exact report_lines. Qed.
Print Assumptions C90_report.

Theorem C90_fixed : forall (T : Type) (N : Num T) (E : env T) fuel unroll it lin g init a' ms,
  fixed_logged E true fuel unroll it lin g init = Some (Ok a', ms) ->
  exists c res k st, compute_cost E g init = Ok (c, res) /\
    trail (fixed_step E it lin g) k (mkState 0 init c res false n0) st (st k) /\ k = (if unroll then Z.to_nat it else Nat.max 1 (Z.to_nat it)) /\
    (forall i, i <= k -> current E g (st i)) /\ a' = s_assign (st k) /\ ms = report None false k st.
Proof. exact fixed_lines. Qed.
Print Assumptions C90_fixed.

Theorem C90_last : forall (T : Type) (N : Num T) (E : env T) fs g vs init fuel lin a' ms, classes_ok (e_cls E) -> (forall f, In f fs -> factor_ok f) ->
  graph_make E fs = Ok g -> wf_assign (e_cls E) vs false init ->
  (exists cfg, gn_logged E true fuel cfg lin g init = Some (Ok a', ms)) \/
  (exists cfg, lm_logged E true fuel cfg lin g init = Some (Ok a', ms)) \/
  (exists cfg, dl_logged E true fuel cfg lin g init = Some (Ok a', ms)) \/
  (exists unroll it, fixed_logged E true fuel unroll it lin g init = Some (Ok a', ms)) ->
  exists ms0 c r, ms = ms0 ++ [Terminated (length ms0) c] /\ compute_cost E g a' = Ok (c, r).
Proof. exact last_line. Qed.
Print Assumptions C90_last.

#[local] Existing Instance NumF32.
Theorem C90_refuted : exists (E : env f32) fs g init a' l1 l2 l3 rest, graph_make E fs = Ok g /\
  lm_logged E true 3 (lm_default 3) cholmod_solve g init = Some (Ok a', l1 :: l2 :: l3 :: rest) /\
  nltb (line_cost l1) (lit 5) = true /\ line_cost l2 = line_cost l1 /\ nltb (lit 100000000000000000) (line_cost l3) = true.
Proof. exact printed_rises. Qed.
Print Assumptions C90_refuted.

(* non-vacuity: verbose runs of the four solvers *)
Example C90_example : exists a1 a2 a3 a4 m1 m2 m3 m4 x y z, classes_ok (e_cls (exSE (T := f32))) /\ (forall f, In f (two (T := f32)) -> factor_ok f) /\ graph_make exSE two = Ok gtwo /\
  wf_assign (e_cls exSE) [vy; vx] false swapped /\ as_layout swapped <> g_layout gtwo /\
  gn_logged exSE true 9 (term_default 9) cholmod_solve gtwo swapped = Some (Ok a1, m1) /\ m1 = [Iteration 0 (Some 9%Z) (lit 40) None; Iteration 1 (Some 9%Z) x None; Iteration 2 (Some 9%Z) n0 None; Terminated 3 n0] /\
  lm_logged exSE true 3 (lm_default 3) cholmod_solve gtwo swapped = Some (Ok a2, m2) /\ length m2 = 4 /\
  dl_logged exSE true 9 (dl_default 9) cholmod_solve gtwo swapped = Some (Ok a3, m3) /\ nth 1 m3 (Terminated 0 n0) <> nth 0 m3 (Terminated 0 n0) /\
  fixed_logged exSE true 9 false 2 cholmod_solve gtwo swapped = Some (Ok a4, m4) /\ m4 = [Iteration 0 None (lit 40) None; Iteration 1 None y None; Terminated 2 z] /\
  gn_logged exSE false 9 (term_default 9) cholmod_solve gtwo swapped = Some (Ok a1, []).
Proof. exact ex_logs. Qed.

(* non-vacuity: an exception prints nothing *)
Example C90_example_raises : gn_logged exSE true 9 (term_default 9) cholmod_solve gtwo (scalars [vx] [lit 1]) = Some (Err AssertionError, []).
Proof. exact ex_raises. Qed.
