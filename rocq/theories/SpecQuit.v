(* Specification vocabulary: what the stopping tests say on a pose graph whose measurements can all
   hold at once but need not determine the poses. *)
From Coq Require Import List ZArith Reals.
From Verif Require Import Num NumR Py Arr MLayout MAssign MNoise MSparse MFactor MGraph MLinear MSolver MLie MPose SpecLayout SpecTree SpecAssign SpecGraph SpecSolver SpecBook SpecLoose SpecDrift SpecPoseStop.
Local Open Scope R_scope.

(* no stored parameter of a pose of the graph exceeds bound *)
Definition poses_below (fs : list (factor R)) (bound : R) (val : var -> pytree R) : Prop :=
  forall v, In v (mentioned fs) -> forall i, Rabs (nth i (params (val v)) 0) <= bound.

(* a solver started within rho of z up to an unseen motion, with cost tolerance at most delta, ends
   after k iterations with the error e' shrunk k times by q, up to a factor C, and as small as its
   stopping says *)
Definition quits (groups : vty -> lie_ops R (list R)) (fs : list (factor R)) (z : var -> pytree R) (rho q C D delta : R) (cfg : term_cfg R) (solve : nat -> assign R -> option (result (assign R))) : Prop :=
  cost_tolerance cfg <= delta -> 0 <= parameter_tolerance cfg ->
  forall bound fuel init val e, 0 <= bound -> (iteration_cap (max_iterations cfg) <= fuel)%nat -> assigns (pose_env groups) fs init val -> poses_below fs bound val -> apart groups fs z val e -> size fs e <= rho ->
  exists a' val' e' k, solve fuel init = Some (Ok a') /\ assigns (pose_env groups) fs a' val' /\ (1 <= k <= iteration_cap (max_iterations cfg))%nat /\
    apart groups fs z val' e' /\ size fs e' <= C * q ^ k * size fs e /\ halted cfg (D * (1 + bound)) k (size fs e').

(* with cost and parameter tolerances at most delta, at least N iterations allowed and the gradient
   test off, all stored parameters of the result are within eps of some exact fit *)
Definition quits_close (groups : vty -> lie_ops R (list R)) (fs : list (factor R)) (z : var -> pytree R) (rho bound eps delta : R) (N : nat) (cfg : term_cfg R) (solve : nat -> assign R -> option (result (assign R))) : Prop :=
  cost_tolerance cfg <= delta -> 0 <= parameter_tolerance cfg <= delta -> (Z.of_nat N <= max_iterations cfg <= gradient_start cfg)%Z ->
  forall fuel init val e, (iteration_cap (max_iterations cfg) <= fuel)%nat -> assigns (pose_env groups) fs init val -> poses_below fs bound val -> apart groups fs z val e -> size fs e <= rho ->
  exists a' val' w, solve fuel init = Some (Ok a') /\ assigns (pose_env groups) fs a' val' /\ alike groups fs z w /\ within fs eps val' w.
