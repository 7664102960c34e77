(* Theorem C68: the trust-region solvers in single precision. *)
From Coq Require Import List Arith Bool ZArith Floats.SpecFloat.
From Flocq Require Import IEEE754.BinarySingleNaN.
From Verif Require Import Num NumR NumF32 NumB32 Py Arr MLayout MAssign MNoise MSparse MFactor MGraph MLinear MSolver SpecSolver SpecB32 Ex ExG ExS PB32 PB32S PExB32.
Import ListNotations.
#[local] Existing Instance NumB32.

Theorem C68_accepted_decreases :
  forall (E : env b32) lin step qmin g s s', trust_body E lin step qmin -> nltb n0 qmin = true -> step g s = Ok s' ->
  exists A d prop c r q Ad, trust_step E g qmin s s' A d prop c r q /\ matmul A d = Ok Ad /\
    (nleb qmin q = true -> s_assign s' = prop /\ s_cost s' = c /\
       (nltb (sumsq (vadd Ad (s_res s))) (s_cost s) = true -> nltb (s_cost s') (s_cost s) = true)) /\
    (nleb qmin q = false -> s_assign s' = s_assign s /\ s_cost s' = s_cost s).
Proof. exact accepted_decreases_b32. Qed.
Print Assumptions C68_accepted_decreases.

Theorem C68_lambda_range :
  forall (E : env b32) cfg lin g s0, lm_params cfg -> nleb n0 (s_extra s0) = true -> nleb (s_extra s0) (lambda_max cfg) = true ->
  forall k s, runs (lm_step E cfg lin g) k s0 s -> nleb n0 (s_extra s) = true /\ nleb (s_extra s) (lambda_max cfg) = true.
Proof. exact lambda_range_b32. Qed.
Print Assumptions C68_lambda_range.

Theorem C68_lambda_positive :
  forall (E : env b32) n lin g s0, s_extra s0 = lambda_initial (lm_default n) ->
  forall k s, runs (lm_step E (lm_default n) lin g) k s0 s -> k <= 138 -> nltb n0 (s_extra s) = true.
Proof. exact lambda_positive_b32. Qed.
Print Assumptions C68_lambda_positive.

Theorem C68_lambda_zero_refuted :
  exists (E : env b32) fs g s0 s, graph_make E fs = Ok g /\ current E g s0 /\
  s_extra s0 = lambda_initial (lm_default 200) /\ runs (lm_step E (lm_default 200) cholmod_solve g) 142 s0 s /\ nltb n0 (s_extra s) = false.
Proof. exact lambda_reaches_zero. Qed.
Print Assumptions C68_lambda_zero_refuted.

Theorem C68_radius_not_negative :
  forall (E : env b32) cfg lin g s0, nltb (s_extra s0) n0 = false ->
  forall k s, runs (dl_step E cfg lin g) k s0 s -> nltb (s_extra s) n0 = false.
Proof. exact radius_not_negative_b32. Qed.
Print Assumptions C68_radius_not_negative.

Theorem C68_same_as_specfloat : hom.
Proof. exact b32_f32. Qed.
Print Assumptions C68_same_as_specfloat.

Example C68_example : graph_make exSE floose = Ok gloose /\ current exSE gloose sloose /\
  trust_body exSE cholmod_solve (lm_step exSE (lm_default 200) cholmod_solve) (lm_quality_min (lm_default 200)) /\
  nltb n0 (lm_quality_min (lm_default (N := NumB32) 200)) = true /\ lm_params (lm_default 200) /\
  s_extra sloose = lambda_initial (lm_default 200) /\ nleb n0 (s_extra sloose) = true /\ nleb (s_extra sloose) (lambda_max (lm_default 200)) = true /\
  nltb (radius_initial (dl_default (N := NumB32) 100)) n0 = false /\
  exists s1, lm_step exSE (lm_default 200) cholmod_solve gloose sloose = Ok s1 /\ nltb (s_cost s1) (s_cost sloose) = true.
Proof. exact ex_b32. Qed.
