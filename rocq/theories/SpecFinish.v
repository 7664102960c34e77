(* Specification vocabulary: what the stopping tests say about a solve that starts close to an exact fit. *)
From Coq Require Import List ZArith Reals.
From Verif Require Import Num NumR Py Arr MLayout MAssign MNoise MSparse MFactor MGraph MLinear MSolver SpecLayout SpecTree SpecAssign SpecGraph SpecSparse SpecDeriv SpecSolver SpecInv SpecLin SpecLocal.
Local Open Scope R_scope.

(* k iterations, stopped by these settings, have brought val to val': the squared distance to valz has
   shrunk by M th^k; and the k-th iteration was the last one allowed, or the gradient test was already
   active, or the distance is at most D times what the parameter tolerance p asks for *)
Definition stopped_near (fs : list (factor R)) (cfg : term_cfg R) (valz : var -> pytree R) (M th D : R) (val val' : var -> pytree R) (k : nat) : Prop :=
  let p := parameter_tolerance cfg in
  distance2 fs val' valz <= M * th ^ k * distance2 fs val valz /\
  ((max_iterations cfg <= Z.of_nat k)%Z \/ (gradient_start cfg < Z.of_nat k)%Z \/ distance fs val' valz <= D * (p * (1 + p))).

(* a solver started within sigma of valz, with cost tolerance at most delta, returns values that stopped_near describes *)
Definition stops_near (E : env R) (fs : list (factor R)) (valz : var -> pytree R) (sigma M th D delta : R) (cfg : term_cfg R) (solve : nat -> assign R -> option (result (assign R))) : Prop :=
  cost_tolerance cfg <= delta -> 0 <= parameter_tolerance cfg ->
  forall fuel init val, (iteration_cap (max_iterations cfg) <= fuel)%nat -> assigns E fs init val -> distance fs val valz <= sigma ->
  exists a' val' k, solve fuel init = Some (Ok a') /\ assigns E fs a' val' /\ (1 <= k <= iteration_cap (max_iterations cfg))%nat /\ stopped_near fs cfg valz M th D val val' k.

(* with cost and parameter tolerances at most delta, at least N iterations allowed and the gradient test off, the result is within eps of valz *)
Definition accurate (E : env R) (fs : list (factor R)) (valz : var -> pytree R) (sigma eps delta : R) (N : nat) (cfg : term_cfg R) (solve : nat -> assign R -> option (result (assign R))) : Prop :=
  cost_tolerance cfg <= delta -> 0 <= parameter_tolerance cfg <= delta -> (Z.of_nat N <= max_iterations cfg <= gradient_start cfg)%Z ->
  forall fuel init val, (iteration_cap (max_iterations cfg) <= fuel)%nat -> assigns E fs init val -> distance fs val valz <= sigma ->
  exists a' val', solve fuel init = Some (Ok a') /\ assigns E fs a' val' /\ distance fs val' valz <= eps.
