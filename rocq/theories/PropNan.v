(* Theorem C66: not-a-number costs and residuals in the nonlinear solvers. *)
From Coq Require Import List Arith Bool ZArith Reals Floats.SpecFloat.
From Verif Require Import Num NumR NumF32 Py Arr MLayout MAssign MNoise MSparse MFactor MGraph MLinear MSolver SpecSolver SpecNan Ex ExG ExS PExNan.
Import ListNotations.
#[local] Existing Instance NumF32.

Theorem C66_nan_rejected :
  forall (T : Type) (N : Num T) (isnan : T -> Prop), nan_arith N isnan -> forall (E : env T) lin g s s',
  has_nan isnan (s_res s) \/ has_nan isnan (s_res s') \/ isnan (s_cost s) ->
  (forall cfg, lm_step E cfg lin g s = Ok s' -> s_assign s' = s_assign s /\ s_cost s' = s_cost s /\
     s_done s' = exceeded_max_iterations (lm_term cfg) s /\
     s_extra s' = nmax (lambda_min cfg) (nmin (nmul (s_extra s) (lambda_factor cfg)) (lambda_max cfg))) /\
  (forall cfg, dl_step E cfg lin g s = Ok s' -> s_assign s' = s_assign s /\ s_cost s' = s_cost s /\
     s_done s' = exceeded_max_iterations (dl_term cfg) s /\ s_extra s' = s_extra s).
Proof. exact @nan_rejected. Qed.
Print Assumptions C66_nan_rejected.

Theorem C66_cost_never_nan :
  forall (T : Type) (N : Num T) (isnan : T -> Prop), nan_arith N isnan -> forall (E : env T) lin step qmin g k s s',
  trust_body E lin step qmin -> runs (step g) k s s' -> ~ isnan (s_cost s) -> ~ isnan (s_cost s').
Proof. exact @never_nan. Qed.
Print Assumptions C66_cost_never_nan.

Theorem C66_number_types :
  nan_arith NumXR (fun x => x = NaN) /\ nan_arith NumF32 (fun x => x = S754_nan).
Proof. exact nan_numbers. Qed.
Print Assumptions C66_number_types.

Theorem C66_recovery_refuted :
  exists (E : env f32) fs g init a b c r c' r', graph_make E fs = Ok g /\
  compute_cost E g init = Ok (c, r) /\ lm_solve E 30 (lm_default 30) cholmod_solve g init = Some (Ok a) /\ a = init /\
  lm_solve E 30 (mkLm (term_default 30) (nlit 1 10) (lit 2) (nlit 1 100000) (lit 10000000000) (nlit 1 1000)) cholmod_solve g init = Some (Ok b) /\
  compute_cost E g b = Ok (c', r') /\ nltb c' (nlit 1 1000000) = true /\ nltb (lit 3) c = true.
Proof. exact lm_poisoned. Qed.
Print Assumptions C66_recovery_refuted.

Theorem C66_dogleg_recovery_refuted :
  exists (E : env f32) fs g init a b c r c' r', graph_make E fs = Ok g /\
  compute_cost E g init = Ok (c, r) /\ dl_solve E 30 (mkDl (term_default 30) (lit 100) (nlit 1 1000)) cholmod_solve g init = Some (Ok a) /\ a = init /\
  dl_solve E 1 (dl_default 1) cholmod_solve g init = Some (Ok b) /\
  compute_cost E g b = Ok (c', r') /\ nltb c' c = true.
Proof. exact dl_poisoned. Qed.
Print Assumptions C66_dogleg_recovery_refuted.

Theorem C66_gauss_newton_refuted :
  exists (E : env f32) fs g init c r a, graph_make E fs = Ok g /\ compute_cost E g init = Ok (c, r) /\ nltb c (lit 5) = true /\
  gn_solve E 1 (term_default 1) cholmod_solve g init = Some (Ok a) /\ exists r', compute_cost E g a = Ok (S754_nan, r').
Proof. exact gn_accepts_nan. Qed.
Print Assumptions C66_gauss_newton_refuted.

Example C66_example :
  current exNE groot sroot /\ s_cost sroot <> S754_nan /\ ~ has_nan (fun x => x = S754_nan) (s_res sroot) /\
  exists s1 s2, lm_step exNE (lm_default 30) cholmod_solve groot sroot = Ok s1 /\ has_nan (fun x => x = S754_nan) (s_res s1) /\
  runs (lm_step exNE (lm_default 30) cholmod_solve groot) 2 sroot s2 /\ s_assign s2 = nine /\ s_extra s2 <> s_extra s1.
Proof. exact ex_nan. Qed.

