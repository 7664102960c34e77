(* C108: Levenberg-Marquardt after rejected proposals *)
From Coq Require Import List Arith Bool Reals ZArith.
From Verif Require Import Num NumR Py Arr MLayout MAssign MNoise MSparse MFactor MGraph MLinear MSolver SpecLayout SpecTree SpecAssign SpecGraph SpecSparse SpecSolver SpecOrder SpecInv SpecDescent SpecRecover Ex ExG ExS PExDescent PExRecover.
Import ListNotations.
Local Open Scope R_scope.

Theorem C108_recovers : forall E fs g a c0 r0 A ng F K f q B, slope E fs g a c0 r0 A ng F K -> 1 <= f -> 0 < q -> q * (1 + f) < 1 -> 0 <= B ->
  exists L, forall cfg s0 s1 s2 s3, lambda_factor cfg = f -> lm_quality_min cfg = q -> lambda_min cfg <= s_extra s0 -> L <= s_extra s0 -> L <= lambda_max cfg ->
  s_assign s0 = a -> s_cost s0 = c0 -> length (s_res s0) = length r0 -> sumsq (s_res s0) <= B ->
  lm_step E cfg cholmod_solve g s0 = Ok s1 -> stays s0 s1 -> lm_step E cfg cholmod_solve g s1 = Ok s2 -> stays s1 s2 ->
  lm_step E cfg cholmod_solve g s2 = Ok s3 -> s_cost s3 < c0 /\ current E g s3.
Proof. exact recovered. Qed.
Print Assumptions C108_recovers.

Theorem C108_no_endless_rejection : forall E fs g a c0 r0 A ng F K f q B lmin, slope E fs g a c0 r0 A ng F K -> 1 < f -> 0 < q -> q * (1 + f) < 1 -> 0 <= B -> 0 < lmin ->
  exists L n, forall cfg s s', lambda_factor cfg = f -> lm_quality_min cfg = q -> lmin <= lambda_min cfg -> L <= lambda_max cfg ->
  s_assign s = a -> s_cost s = c0 -> length (s_res s) = length r0 -> 0 < s_extra s -> ~ stuck B (lm_step E cfg cholmod_solve g) n s s'.
Proof. exact never_long. Qed.
Print Assumptions C108_no_endless_rejection.

Theorem C108_threshold_needed_refuted : exists E fs g a c0 r0 A ng, slope E fs g a c0 r0 A ng 1 0 /\
  forall L, 1 <= L -> exists cfg s, lambda_factor cfg = 2 /\ lm_quality_min cfg = 3/4 /\ 1 <= lambda_min cfg /\ L <= lambda_max cfg /\
    s_assign s = a /\ s_cost s = c0 /\ length (s_res s) = length r0 /\ 0 < s_extra s /\ forall n, exists s', stuck 1 (lm_step E cfg cholmod_solve g) n s s'.
Proof. exact threshold_needed. Qed.
Print Assumptions C108_threshold_needed_refuted.

Theorem C108_result_worse_refuted : forall M, 2000 <= M -> exists (E : env R) fs g init val r,
  classes_ok (e_cls E) /\ (forall f, In f fs -> factor_ok f) /\ well_shaped E fs /\ graph_make E fs = Ok g /\ assigns E fs init val /\
  compute_cost E g init = Ok (1, r) /\
  forall mx fuel, (2 <= mx)%Z -> (iteration_cap mx <= fuel)%nat -> exists a' r',
    lm_solve E fuel (lm_default mx) cholmod_solve g init = Some (Ok a') /\ compute_cost E g a' = Ok (M * M, r').
Proof. exact result_worse. Qed.
Print Assumptions C108_result_worse_refuted.

(* non-vacuity: two rejections in a row at any damping, for the residual x at x = 1 *)
Example C108_example : slope exSE line gline at1 1 [1] unit_coo [-1] 1 0 /\ Rlit 1 1000 * (1 + 2) < 1 /\
  forall L, exists cfg s0 s1 s2 s3, lambda_factor cfg = 2 /\ lm_quality_min cfg = Rlit 1 1000 /\ lambda_min cfg <= s_extra s0 /\ L <= s_extra s0 /\ L <= lambda_max cfg /\
  s_assign s0 = at1 /\ s_cost s0 = 1 /\ length (s_res s0) = length [1] /\ sumsq (s_res s0) <= 1 /\
  lm_step exSE cfg cholmod_solve gline s0 = Ok s1 /\ stays s0 s1 /\ lm_step exSE cfg cholmod_solve gline s1 = Ok s2 /\ stays s1 s2 /\ lm_step exSE cfg cholmod_solve gline s2 = Ok s3.
Proof. exact ex_recovers. Qed.
