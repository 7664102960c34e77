(* C109: Dogleg after rejected proposals *)
From Coq Require Import List Arith Bool Reals ZArith.
From Verif Require Import Num NumR Py Arr MLayout MAssign MNoise MSparse MFactor MGraph MLinear MSolver SpecLayout SpecTree SpecAssign SpecGraph SpecSparse SpecSolver SpecOrder SpecInv SpecDescent SpecRecover Ex ExG ExS PExDescent PExRecover PExRebound.
Import ListNotations.
Local Open Scope R_scope.

Theorem C109_recovers : forall E fs g a c0 r0 A ng F K q, slope E fs g a c0 r0 A ng F K -> 0 < q -> 3 * q < 1 ->
  exists delta, 0 < delta /\ forall cfg s0 s1 s2 s3, dl_quality_min cfg = q -> 0 < s_extra s0 <= delta ->
  s_assign s0 = a -> s_cost s0 = c0 -> length (s_res s0) = length r0 ->
  dl_step E cfg cholmod_solve g s0 = Ok s1 -> stays s0 s1 -> dl_step E cfg cholmod_solve g s1 = Ok s2 -> stays s1 s2 ->
  dl_step E cfg cholmod_solve g s2 = Ok s3 -> s_cost s3 < c0 /\ current E g s3.
Proof. exact dl_recovered. Qed.
Print Assumptions C109_recovers.

Theorem C109_no_endless_rejection : forall E fs g a c0 r0 A ng F K q rad, slope E fs g a c0 r0 A ng F K -> 0 < q <= 1/4 -> 0 < rad ->
  exists n, forall B cfg s s', dl_quality_min cfg = q -> 0 < s_extra s <= rad ->
  s_assign s = a -> s_cost s = c0 -> length (s_res s) = length r0 -> ~ stuck B (dl_step E cfg cholmod_solve g) n s s'.
Proof. exact dl_never_long. Qed.
Print Assumptions C109_no_endless_rejection.

Theorem C109_threshold_needed_refuted : exists E fs g a c0 r0 A ng, slope E fs g a c0 r0 A ng 1 0 /\
  forall delta, 0 < delta -> exists cfg s, dl_quality_min cfg = 3/4 /\ 0 < s_extra s <= delta /\
    s_assign s = a /\ s_cost s = c0 /\ length (s_res s) = length r0 /\ forall n, exists s', stuck 1 (dl_step E cfg cholmod_solve g) n s s'.
Proof. exact dl_threshold_needed. Qed.
Print Assumptions C109_threshold_needed_refuted.

Theorem C109_result_worse_refuted : forall H, 2 <= H -> exists (E : env R) fs g init val r,
  classes_ok (e_cls E) /\ (forall f, In f fs -> factor_ok f) /\ well_shaped E fs /\ graph_make E fs = Ok g /\ assigns E fs init val /\
  compute_cost E g init = Ok (1, r) /\
  forall mx fuel, (2 <= mx)%Z -> (iteration_cap mx <= fuel)%nat -> exists a' r',
    dl_solve E fuel (dl_default mx) cholmod_solve g init = Some (Ok a') /\ compute_cost E g a' = Ok (H * H, r').
Proof. exact dl_result_worse. Qed.
Print Assumptions C109_result_worse_refuted.

(* non-vacuity: two rejections in a row at any radius, for the residual x at x = 1 *)
Example C109_example : slope exSE line gline at1 1 [1] unit_coo [-1] 1 0 /\ 3 * Rlit 1 1000 < 1 /\
  forall delta, 0 < delta -> exists cfg s0 s1 s2 s3, dl_quality_min cfg = Rlit 1 1000 /\ 0 < s_extra s0 <= delta /\
  s_assign s0 = at1 /\ s_cost s0 = 1 /\ length (s_res s0) = length [1] /\
  dl_step exSE cfg cholmod_solve gline s0 = Ok s1 /\ stays s0 s1 /\ dl_step exSE cfg cholmod_solve gline s1 = Ok s2 /\ stays s1 s2 /\ dl_step exSE cfg cholmod_solve gline s2 = Ok s3.
Proof. exact ex_rebounds. Qed.
