(* Specification vocabulary: sequences of full Gauss-Newton steps. *)
From Coq Require Import List Arith ZArith Reals.
From Verif Require Import Num NumR Py Arr MLayout MAssign MSparse MFactor MGraph MLinear MSolver SpecLayout SpecTree SpecAssign SpecGraph SpecSparse SpecSolver SpecOrder SpecInv SpecDescent SpecCgLin.
Import ListNotations.
Local Open Scope R_scope.

(* the loop bodies of GaussNewtonSolver and FixedIterationGaussNewtonSolver, with CHOLMOD *)
Inductive full_body (E : env R) : (graph R -> sstate R -> result (sstate R)) -> Prop :=
| full_gn cfg : full_body E (gn_step E cfg cholmod_solve)
| full_fixed iterations : full_body E (fixed_step E iterations cholmod_solve).

(* consecutive iterations, with the state before each of them, its Jacobian, and the negative
   gradient A^T (-r) *)
Inductive walk (E : env R) (g : graph R) (step : graph R -> sstate R -> result (sstate R)) :
    list (sstate R * coo R * list R) -> sstate R -> sstate R -> Prop :=
| walk_nil s : walk E g step [] s s
| walk_cons s s' s'' A ng l : step g s = Ok s' -> compute_whitened_residual_jacobian E g (s_assign s) (s_res s) = Ok A ->
    matmul (transpose A) (vneg (s_res s)) = Ok ng -> walk E g step l s' s'' -> walk E g step ((s, A, ng) :: l) s s''.

(* m |x|^2 <= |A x|^2 <= F |x|^2, and the residual's curvature at the state's assignment is at
   most K *)
Definition tame (E : env R) (g : graph R) (m F K : R) (v : sstate R * coo R * list R) : Prop :=
  let '(s, A, _) := v in bounded_below m A /\ norm_le F A /\ curvature_le E g (s_assign s) (s_res s) A K.

(* the same at every assignment of the graph's variables that costs at most c0 *)
Definition tame_below (E : env R) (fs : list (factor R)) (g : graph R) (m F K c0 : R) : Prop :=
  forall s val A ng, assigns E fs (s_assign s) val -> same_layout (as_layout (s_assign s)) (g_layout g) -> compute_cost E g (s_assign s) = Ok (s_cost s, s_res s) ->
    s_cost s <= c0 -> compute_whitened_residual_jacobian E g (s_assign s) (s_res s) = Ok A -> tame E g m F K (s, A, ng).

(* at those assignments the gradient sees the whole residual: |A^T r|^2 >= sigma |r|^2 *)
Definition seen_below (E : env R) (fs : list (factor R)) (g : graph R) (sigma c0 : R) : Prop :=
  forall s val A ng, assigns E fs (s_assign s) val -> same_layout (as_layout (s_assign s)) (g_layout g) -> compute_cost E g (s_assign s) = Ok (s_cost s, s_res s) ->
    s_cost s <= c0 -> compute_whitened_residual_jacobian E g (s_assign s) (s_res s) = Ok A -> matmul (transpose A) (vneg (s_res s)) = Ok ng -> sigma * s_cost s <= sumsq ng.

(* how many of the iterations start with a squared gradient above eps *)
Fixpoint steep (eps : R) (l : list (sstate R * coo R * list R)) : nat :=
  match l with
  | [] => 0%nat
  | v :: l' => if Rlt_dec eps (sumsq (snd v)) then S (steep eps l') else steep eps l'
  end.
