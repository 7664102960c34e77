(* A concrete Dogleg iteration for C36. *)
From Coq Require Import List Arith Bool ZArith Reals Lra.
From Verif Require Import Num NumR Py Arr MLayout MAssign MNoise MSparse MFactor MGraph MLinear MSolver SpecLayout SpecTree SpecAssign SpecGraph SpecSparse SpecSolver SpecInv Ex ExS PInv PExSolver.
Import ListNotations.
Local Open Scope R_scope.

Lemma ex_dogleg_run : (forall f, In f (mixed (N := NumR)) -> factor_ok f) /\ graph_make exSE mixed = Ok gmixed /\
  assigns exSE mixed (s_assign smixed_dl) vmixed /\ (forall f, In f mixed -> jacobian_shape_ok exSE vmixed f) /\
  total residual_dim (mixed (N := NumR)) = 2%nat /\ length (s_res smixed_dl) = 2%nat /\ sized (cholmod_solve (T := R)) /\ 0 < s_extra smixed_dl /\
  exists s', dl_step exSE (dl_default 100) cholmod_solve gmixed smixed_dl = Ok s'.
Proof.
  destruct ex_lm_prediction as (H1 & H2 & H3 & _ & H5 & H6 & _). destruct ex_radius as (_ & Hr & Hs).
  do 2 (split; [assumption|]). split; [exact H3|]. do 2 (split; [assumption|]). split; [reflexivity|]. split; [apply cholmod_sized|].
  split; [|exact Hs]. rewrite Hr. cbn. unfold Rlit. lra.
Qed.
