(* Specification vocabulary: what the stopping tests say about the result. *)
From Coq Require Import List ZArith Reals.
From Verif Require Import Num NumR Py Arr MLayout MAssign MNoise MSparse MFactor MGraph MLinear MSolver SpecLayout SpecTree SpecAssign SpecGraph SpecTrCg.
Local Open Scope R_scope.

(* sum of the squares of all scalars of the problem's variables *)
Definition size2 (fs : list (factor R)) (val : var -> pytree R) : R := vsum (map (fun v => sumsq (ravel (val v))) (mentioned fs)).

(* a linear solver, and the share of the excess cost that a step with damping lambda removes; sigma and F bound the spectrum of the problem from below and above *)
Inductive linear_method (sigma F : R) : linear_solver (T := R) -> (R -> R) -> Prop :=
| method_cholmod : linear_method sigma F cholmod_solve (fun lambda => sigma / (F + lambda + 1 / 100000))
| method_cg tol t : (forall i, Rabs (tol i) <= t) -> t < 1 -> linear_method sigma F (cg_solve tol) (share sigma F t).

(* what is known of the cost c of a result of size x2 after k iterations, when every iteration removes the share q of the excess over the minimum cz *)
Definition stop_reason (cfg : term_cfg R) (sigma q cz c x2 : R) (k : nat) : Prop :=
  let tol := cost_tolerance cfg in let p := parameter_tolerance cfg in
  (max_iterations cfg <= Z.of_nat k)%Z \/ (gradient_start cfg < Z.of_nat k)%Z \/
  (q - tol) * (c - cz) <= (1 - q) * tol * cz \/
  q * q * (c - cz) <= (1 - q) * sigma * Rsqr ((sqrt x2 + p) * p / (1 - p)).
