(* C75: an accepted trust-region step lowers the cost by a definite amount, and enough damping or
   a small enough radius makes the step accepted. *)
From Coq Require Import List Arith Reals.
From Verif Require Import Num NumR Py Arr MLayout MAssign MNoise MSparse MFactor MGraph MLinear MSolver SpecLayout SpecTree SpecAssign SpecGraph SpecSparse SpecSolver SpecOrder SpecDescent.
From Verif Require Import Ex ExG ExS PExDescent.
Import ListNotations.
Local Open Scope R_scope.

Theorem C75_levenberg_marquardt (E : env R) fs g : classes_ok (e_cls E) -> (forall f, In f fs -> factor_ok f) -> graph_make E fs = Ok g ->
  well_shaped E fs -> total residual_dim fs <> 0%nat ->
  forall s val, assigns E fs (s_assign s) val -> same_layout (as_layout (s_assign s)) (g_layout g) -> current E g s ->
  forall cfg F l s', 0 < lm_quality_min cfg -> 1 <= lambda_factor cfg -> 0 <= F -> 0 < s_extra s ->
  accepted E g (lm_step E cfg cholmod_solve) (lm_quality_min cfg) l s s' -> (forall A ng lambda, In (A, ng, lambda) l -> norm_le F A) ->
  lm_quality_min cfg * vsum (map (fun v => sumsq (snd (fst v)) / (F + (snd v + Rlit 1 100000))) l) <= s_cost s - s_cost s' /\ 0 <= s_cost s' /\
  (l <> [] -> exists A ng lambda, In (A, ng, lambda) l /\
     sumsq ng * (lm_quality_min cfg * INR (length l)) <= s_cost s * (F + (s_extra s + Rlit 1 100000))).
Proof. exact (lm_descent E fs g). Qed.
Print Assumptions C75_levenberg_marquardt.

Theorem C75_dogleg (E : env R) fs g : classes_ok (e_cls E) -> (forall f, In f fs -> factor_ok f) -> graph_make E fs = Ok g ->
  well_shaped E fs -> total residual_dim fs <> 0%nat ->
  forall s val, assigns E fs (s_assign s) val -> same_layout (as_layout (s_assign s)) (g_layout g) -> current E g s ->
  forall cfg F l s', 0 < dl_quality_min cfg -> 0 <= F -> 0 < s_extra s ->
  accepted E g (dl_step E cfg cholmod_solve) (dl_quality_min cfg) l s s' -> (forall A ng radius, In (A, ng, radius) l -> norm_le F A) ->
  dl_quality_min cfg * vsum (map (fun v => Rmin (snd v * vnorm (snd (fst v))) (sumsq (snd (fst v)) / (F + Rlit 1 100000))) l) <= s_cost s - s_cost s' /\
  0 <= s_cost s' /\
  (l <> [] -> exists A ng radius, In (A, ng, radius) l /\
     Rmin (radius * vnorm ng) (sumsq ng / (F + Rlit 1 100000)) * (dl_quality_min cfg * INR (length l)) <= s_cost s).
Proof. exact (dl_descent E fs g). Qed.
Print Assumptions C75_dogleg.

Theorem C75_large_damping (E : env R) fs g : classes_ok (e_cls E) -> (forall f, In f fs -> factor_ok f) -> graph_make E fs = Ok g ->
  well_shaped E fs -> total residual_dim fs <> 0%nat ->
  forall s val, assigns E fs (s_assign s) val -> same_layout (as_layout (s_assign s)) (g_layout g) -> current E g s ->
  forall cfg K s' A ng, compute_whitened_residual_jacobian E g (s_assign s) (s_res s) = Ok A ->
  matmul (transpose A) (vneg (s_res s)) = Ok ng -> ng <> vzero (length ng) ->
  curvature_le E g (s_assign s) (s_res s) A K -> 0 <= K -> 0 < s_extra s + Rlit 1 100000 -> lm_quality_min cfg <= 1 ->
  2 * sqrt (s_cost s) * K + K * K * (s_cost s / (2 * (s_extra s + Rlit 1 100000))) <= 2 * (1 - lm_quality_min cfg) * (s_extra s + Rlit 1 100000) ->
  lm_step E cfg cholmod_solve g s = Ok s' ->
  exists d prop c r q, trust_step E g (lm_quality_min cfg) s s' A d prop c r q /\ lm_quality_min cfg <= q /\ s_assign s' = prop.
Proof. exact (lm_large_damping E fs g). Qed.
Print Assumptions C75_large_damping.

Theorem C75_small_radius (E : env R) fs g : classes_ok (e_cls E) -> (forall f, In f fs -> factor_ok f) -> graph_make E fs = Ok g ->
  well_shaped E fs -> total residual_dim fs <> 0%nat ->
  forall s val, assigns E fs (s_assign s) val -> same_layout (as_layout (s_assign s)) (g_layout g) -> current E g s ->
  forall cfg F K s' A ng, 0 <= F -> norm_le F A -> compute_whitened_residual_jacobian E g (s_assign s) (s_res s) = Ok A ->
  matmul (transpose A) (vneg (s_res s)) = Ok ng ->
  curvature_le E g (s_assign s) (s_res s) A K -> 0 <= K -> 0 < s_extra s -> dl_quality_min cfg <= 1 ->
  s_extra s * (F + Rlit 1 100000) <= vnorm ng ->
  2 * sqrt (s_cost s) * K * s_extra s + K * K * (s_extra s * s_extra s * s_extra s) <= (1 - dl_quality_min cfg) * vnorm ng ->
  dl_step E cfg cholmod_solve g s = Ok s' ->
  exists d prop c r q, trust_step E g (dl_quality_min cfg) s s' A d prop c r q /\ dl_quality_min cfg <= q /\ s_assign s' = prop.
Proof. exact (dl_small_radius E fs g). Qed.
Print Assumptions C75_small_radius.

Theorem C75_after_rejection_refuted : exists (E : env R) fs g cfg s0 s1 s2 A ng,
  (forall f, In f fs -> factor_ok f) /\ graph_make E fs = Ok g /\ well_shaped E fs /\ 0 < lm_quality_min cfg /\ 1 <= lambda_factor cfg /\
  current E g s0 /\ 0 < s_extra s0 /\ s_done s0 = false /\ lm_step E cfg cholmod_solve g s0 = Ok s1 /\ norm_le 1 A /\
  accepted E g (lm_step E cfg cholmod_solve) (lm_quality_min cfg) [(A, ng, s_extra s1)] s1 s2 /\ s_cost s1 < s_cost s2.
Proof. exact after_rejection. Qed.
Print Assumptions C75_after_rejection_refuted.

Example C75_levenberg_marquardt_case : let s := parab_at 3 10 in let cfg := lm_default (T := R) 100 in exists s' A ng,
  (forall f, In f parab -> factor_ok f) /\ graph_make exSE parab = Ok gparab /\ well_shaped exSE parab /\ total residual_dim parab <> 0%nat /\
  assigns exSE parab (s_assign s) (const_of 3) /\ same_layout (as_layout (s_assign s)) (g_layout gparab) /\ current exSE gparab s /\
  0 < lm_quality_min cfg /\ 1 <= lambda_factor cfg /\ lm_quality_min cfg <= 1 /\ 0 < s_extra s /\
  compute_whitened_residual_jacobian exSE gparab (s_assign s) (s_res s) = Ok A /\ matmul (transpose A) (vneg (s_res s)) = Ok ng /\ ng <> vzero (length ng) /\
  norm_le 36 A /\ curvature_le exSE gparab (s_assign s) (s_res s) A 1 /\
  2 * sqrt (s_cost s) * 1 + 1 * 1 * (s_cost s / (2 * (s_extra s + Rlit 1 100000))) <= 2 * (1 - lm_quality_min cfg) * (s_extra s + Rlit 1 100000) /\
  accepted exSE gparab (lm_step exSE cfg cholmod_solve) (lm_quality_min cfg) [(A, ng, s_extra s)] s s'.
Proof. exact ex_lm_descent. Qed.

Example C75_dogleg_case : let s := parab_at 3 1 in let cfg := dl_default (T := R) 100 in exists s' A ng,
  (forall f, In f parab -> factor_ok f) /\ graph_make exSE parab = Ok gparab /\ well_shaped exSE parab /\ total residual_dim parab <> 0%nat /\
  assigns exSE parab (s_assign s) (const_of 3) /\ same_layout (as_layout (s_assign s)) (g_layout gparab) /\ current exSE gparab s /\
  0 < dl_quality_min cfg /\ dl_quality_min cfg <= 1 /\ 0 < s_extra s /\
  compute_whitened_residual_jacobian exSE gparab (s_assign s) (s_res s) = Ok A /\ matmul (transpose A) (vneg (s_res s)) = Ok ng /\
  norm_le 36 A /\ curvature_le exSE gparab (s_assign s) (s_res s) A 1 /\
  s_extra s * (36 + Rlit 1 100000) <= vnorm ng /\
  2 * sqrt (s_cost s) * 1 * s_extra s + 1 * 1 * (s_extra s * s_extra s * s_extra s) <= (1 - dl_quality_min cfg) * vnorm ng /\
  accepted exSE gparab (dl_step exSE cfg cholmod_solve) (dl_quality_min cfg) [(A, ng, s_extra s)] s s'.
Proof. exact ex_dl_descent. Qed.
