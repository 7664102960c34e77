(* Theorem C69: infinite costs in the trust-region solvers. *)
From Coq Require Import List Arith Bool ZArith Floats.SpecFloat.
From Flocq Require Import IEEE754.BinarySingleNaN.
From Verif Require Import Num NumR NumF32 NumB32 Py Arr MLayout MAssign MNoise MSparse MFactor MGraph MLinear MSolver SpecSolver SpecNan Ex ExG ExS PInf.
Import ListNotations.
#[local] Existing Instance NumF32.

Theorem C69_infinite_cost :
  forall (T : Type) (N : Num T) (isnan : T -> Prop) (inf minf : T), nan_arith N isnan -> inf_arith N isnan inf minf ->
  forall (E : env T) lin step qmin g k s s', trust_body E lin step qmin -> s_cost s = inf -> runs (step g) k s s' ->
  s_assign s' = s_assign s /\ s_cost s' = inf.
Proof. exact @infinite_stuck. Qed.
Print Assumptions C69_infinite_cost.

Theorem C69_number_types :
  nan_arith NumXR (fun x => x = NaN) /\ nan_arith NumF32 (fun x => x = S754_nan) /\ nan_arith NumB32 (fun x => x = B754_nan) /\
  inf_arith NumXR (fun x => x = NaN) (Inf false) (Inf true) /\ inf_arith NumF32 (fun x => x = S754_nan) (S754_infinity false) (S754_infinity true) /\
  inf_arith NumB32 (fun x => x = B754_nan) (B754_infinity false) (B754_infinity true).
Proof. exact infinite_numbers. Qed.
Print Assumptions C69_number_types.

Theorem C69_finite_start_refuted :
  exists (E : env f32) fs g init r a b c r', graph_make E fs = Ok g /\
  compute_cost E g init = Ok (S754_infinity false, r) /\ (forall x, In x (as_storage init ++ r) -> exists s m e, x = S754_finite s m e) /\
  lm_solve E 100 (lm_default 100) cholmod_solve g init = Some (Ok init) /\
  dl_solve E 100 (dl_default 100) cholmod_solve g init = Some (Ok init) /\
  gn_solve E 100 (term_default 100) cholmod_solve g init = Some (Ok a) /\ compute_cost E g a = Ok (c, r') /\
  nltb c (nlit 1 1000000) = true /\
  compute_cost E g (scalars [vx] [lit 1000000000000000000]) = Ok b /\ fst b <> S754_infinity false.
Proof. exact far_stuck. Qed.
Print Assumptions C69_finite_start_refuted.

Example C69_example : trust_body (exSE (N := NumF32)) cholmod_solve (lm_step exSE (lm_default 100) cholmod_solve) (lm_quality_min (lm_default 100)) /\
  s_cost (start gfar far n0) = S754_infinity false /\
  exists s', runs (lm_step exSE (lm_default 100) cholmod_solve gfar) 2 (start gfar far n0) s' /\ s_assign s' = far /\ s_res s' <> s_res (start gfar far n0).
Proof. exact ex_far. Qed.
