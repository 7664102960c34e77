(* Specification vocabulary: what the stopping tests say about a solve that starts close to poses at
   which all measurements hold. *)
From Coq Require Import List ZArith Reals.
From Verif Require Import Num NumR Py Arr MLayout MAssign MNoise MSparse MFactor MGraph MLinear MSolver MLie MPose SpecLayout SpecTree SpecAssign SpecGraph SpecSolver SpecBook ExS.
Local Open Scope R_scope.

(* the k-th iteration was the last one allowed, or the gradient test was already active, or r is at
   most D times what the parameter tolerance p asks for *)
Definition halted (cfg : term_cfg R) (D : R) (k : nat) (r : R) : Prop :=
  let p := parameter_tolerance cfg in
  (max_iterations cfg <= Z.of_nat k)%Z \/ (gradient_start cfg < Z.of_nat k)%Z \/ r <= D * (p * (1 + p)).

(* a solver started at z (+) e with |e| <= rho and cost tolerance at most delta returns z (+) e' with
   |e'| <= q^k |e| after k iterations, and e' is as small as its stopping says *)
Definition pose_stops (E : env R) (fs : list (factor R)) (z : var -> pytree R) (rho q D delta : R) (cfg : term_cfg R) (solve : nat -> assign R -> option (result (assign R))) : Prop :=
  cost_tolerance cfg <= delta -> 0 <= parameter_tolerance cfg ->
  forall fuel init val e, (iteration_cap (max_iterations cfg) <= fuel)%nat -> assigns E fs init val -> tangent E fs e -> moved E fs z e val -> size fs e <= rho ->
  exists a' val' e' k, solve fuel init = Some (Ok a') /\ assigns E fs a' val' /\ (1 <= k <= iteration_cap (max_iterations cfg))%nat /\
    tangent E fs e' /\ moved E fs z e' val' /\ size fs e' <= q ^ k * size fs e /\ halted cfg D k (size fs e').

(* with cost and parameter tolerances at most delta, at least N iterations allowed and the gradient
   test off, the result is z (+) e' with |e'| <= eps *)
Definition pose_accurate (E : env R) (fs : list (factor R)) (z : var -> pytree R) (rho eps delta : R) (N : nat) (cfg : term_cfg R) (solve : nat -> assign R -> option (result (assign R))) : Prop :=
  cost_tolerance cfg <= delta -> 0 <= parameter_tolerance cfg <= delta -> (Z.of_nat N <= max_iterations cfg <= gradient_start cfg)%Z ->
  forall fuel init val e, (iteration_cap (max_iterations cfg) <= fuel)%nat -> assigns E fs init val -> tangent E fs e -> moved E fs z e val -> size fs e <= rho ->
  exists a' val' e', solve fuel init = Some (Ok a') /\ assigns E fs a' val' /\ tangent E fs e' /\ moved E fs z e' val' /\ size fs e' <= eps.

(* the default damping and radius of the code, with termination settings t *)
Definition lm_with (t : term_cfg R) : lm_cfg R := let d := lm_default 0 in mkLm t (lambda_initial d) (lambda_factor d) (lambda_min d) (lambda_max d) (lm_quality_min d).
Definition dl_with (t : term_cfg R) : dl_cfg R := let d := dl_default 0 in mkDl t (radius_initial d) (dl_quality_min d).
