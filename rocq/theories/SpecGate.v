(* Specification vocabulary: how far one more factor raises the cost and moves the result. *)
From Coq Require Import List Arith ZArith Reals.
From Verif Require Import Num NumR Py Arr MLayout MAssign MNoise MSparse MFactor MGraph SpecLayout SpecTree SpecAssign SpecGraph SpecLin.
Import ListNotations.
Local Open Scope R_scope.

(* the cost is cz at the values valz, and more by at least m times the squared distance elsewhere *)
Definition grows_from (E : env R) (fs : list (factor R)) (g : graph R) (m cz : R) (valz : var -> pytree R) : Prop :=
  forall b valb cb rb, assigns E fs b valb -> compute_cost E g b = Ok (cb, rb) -> cz + m * distance2 fs valz valb <= cb.

(* the whitened residual of f, which is r at valz, changes by at most sqrt G times the distance *)
Definition drifts_from (E : env R) (fs : list (factor R)) (f : factor R) (G : R) (valz : var -> pytree R) (r : list R) : Prop :=
  forall valb, (forall v, In v (mentioned fs) -> value_ok (e_cls E (v_ty v)) (valb v)) ->
    exists u, whitened_at E valb f = Ok u /\ sumsq (vsub u r) <= G * distance2 fs valz valb.

(* the result with values val' and cost c: the cost has risen by between m / (m + G) and 1 times
   |r|^2, and the values have moved by at most |r| / sqrt m, and 2 sqrt G |r| / (m + G) if G <= m *)
Definition gated (fs : list (factor R)) (m G cz : R) (valz : var -> pytree R) (r : list R) (val' : var -> pytree R) (c : R) : Prop :=
  cz + sumsq r * m / (m + G) <= c <= cz + sumsq r /\ m * distance2 fs valz val' <= sumsq r /\
  (G <= m -> (m + G) * sqrt (distance2 fs valz val') <= 2 * (sqrt G * vnorm r)).
