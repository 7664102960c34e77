(* Specification vocabulary: what one inexact step removes of the excess cost. *)
From Coq Require Import List Reals.
From Verif Require Import Num NumR Py Arr MLayout MAssign MNoise MSparse MFactor MGraph MSolver SpecLayout SpecTree SpecAssign SpecGraph SpecSparse SpecCgLin.
Local Open Scope R_scope.

(* the share of the excess cost removed with damping lambda and tolerance t; sigma and F bound the spectrum of the problem from below and above *)
Definition share (sigma F t lambda : R) : R := (1 - t) * (1 - t) * sigma / ((1 + lambda) * F).

(* every coordinate influences some residual, at some point where the solvers can be *)
Definition every_column (E : env R) (fs : list (factor R)) (g : graph R) : Prop :=
  exists a val c r A, assigns E fs a val /\ same_layout (as_layout a) (g_layout g) /\ compute_cost E g a = Ok (c, r) /\
    compute_whitened_residual_jacobian E g a r = Ok A /\ no_zero_column A.
