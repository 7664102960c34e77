(* Theorem C73: the cost in single precision, in any order of summation. *)
From Coq Require Import List Arith Bool ZArith Reals Permutation.
From Flocq Require Import Core.Core IEEE754.BinarySingleNaN.
From Verif Require Import Num NumB32 Py Arr MLayout MAssign MNoise MSparse MFactor MGraph SpecSum Ex ExG ExS PExSum.
Import ListNotations.
Local Open Scope R_scope.
#[local] Existing Instance NumB32.

Theorem C73_cost_in_any_order :
  forall (E : env b32) g a c r, compute_cost E g a = Ok (c, r) ->
  (exists t, leaves t = r /\ teval t = c /\ (height t <= S (length r))%nat) /\
  forall t, Permutation (leaves t) r ->
    (Forall (fun x => is_nan x = false) r -> is_nan (teval t) = false /\ nltb (teval t) n0 = false) /\
    (is_finite (teval t) = true -> Rabs (B2R (teval t) - exact_cost r) <= error_bound (height t) (length r) (exact_cost r)) /\
    (Forall (fun x => is_finite x = true) r -> exact_cost r + error_bound (height t) (length r) (exact_cost r) <= max_float -> is_finite (teval t) = true) /\
    (Forall (fun x => is_finite x = true) r -> (teval t = n0 <-> Forall (fun x => Rabs (B2R x) <= bpow radix2 (-75)) r)).
Proof. exact cost_in_any_order. Qed.
Print Assumptions C73_cost_in_any_order.

Theorem C73_relative_bound :
  forall h m e, 0 <= e -> INR h * uro <= 1 / 2 -> error_bound h m e <= 2 * INR h * uro * e + 2 * INR m * tiny.
Proof. exact relative_bound. Qed.
Print Assumptions C73_relative_bound.

Theorem C73_comparisons :
  forall t t', is_finite (teval t) = true -> is_finite (teval t') = true ->
  exact_cost (leaves t) + error_bound (height t) (length (leaves t)) (exact_cost (leaves t)) <
    exact_cost (leaves t') - error_bound (height t') (length (leaves t')) (exact_cost (leaves t')) ->
  nltb (teval t) (teval t') = true.
Proof. exact comparison_safe. Qed.
Print Assumptions C73_comparisons.

Theorem C73_order_refuted :
  exists t t', Permutation (leaves t) (leaves t') /\ nltb (teval t) (teval t') = true /\ is_finite (teval t) = true /\ is_finite (teval t') = true.
Proof. exact (ex_intro _ left_first (ex_intro _ right_first order_differs)). Qed.
Print Assumptions C73_order_refuted.

Theorem C73_zero_residual_refuted :
  exists (E : env b32) fs g a c y, graph_make E fs = Ok g /\ compute_cost E g a = Ok (c, [y]) /\
  nleb c n0 = true /\ nleb n0 c = true /\ is_finite y = true /\ nltb n0 y = true.
Proof. exact zero_cost_nonzero. Qed.
Print Assumptions C73_zero_residual_refuted.

Example C73_example : is_finite (teval (TFma n1 TZero)) = true /\ is_finite (teval (TSq b_2)) = true /\
  exact_cost [n1] = 1 /\ exact_cost [b_2] = 4 /\
  exact_cost [n1] + error_bound 1 1 (exact_cost [n1]) < exact_cost [b_2] - error_bound 1 1 (exact_cost [b_2]) /\
  exact_cost [n1] + error_bound 1 1 (exact_cost [n1]) <= max_float /\ INR 1 * uro <= 1 / 2.
Proof. exact ex_compare. Qed.
