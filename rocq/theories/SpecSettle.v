(* Specification vocabulary: pose graphs whose measurements contradict each other. *)
From Coq Require Import List Arith Reals ZArith.
From Verif Require Import Num NumR Py Arr MLayout MAssign MNoise MSparse MFactor MGraph MLinear MSolver MLie MPose SpecNoise SpecDeriv SpecLie SpecGraph SpecPose SpecZero SpecTwin SpecAssign SpecSolver SpecInv SpecBook.
Import ListNotations.
Local Open Scope R_scope.

(* the groups of rotations *)
Inductive turning : lie_ops R (list R) -> Prop := turning_so2 : turning raw_so2 | turning_so3 : turning raw_so3.
(* the groups of rigid motions, with the rotation vector and the translation of a tangent
   vector, in space (SE(2): about the third axis) *)
Definition axis (raw : lie_ops R (list R)) (d : list R) : list R :=
  if Nat.eqb (lg_dim raw) 6 then [d.[3]; d.[4]; d.[5]] else [0; 0; d.[2]].
Definition slide (raw : lie_ops R (list R)) (d : list R) : list R :=
  if Nat.eqb (lg_dim raw) 6 then [d.[0]; d.[1]; d.[2]] else [d.[0]; d.[1]; 0].
Inductive moving : lie_ops R (list R) -> Prop := moving_se2 : moving raw_se2 | moving_se3 : moving raw_se3.

(* a normalised parameter vector of the right size *)
Definition legal_pose (raw : lie_ops R (list R)) (p : list R) : Prop := length p = length (lg_one raw) /\ unit_pose raw p.

(* Gaussian noise whose whitening multiplies every residual by s *)
Definition scales (n : noise R) (k : nat) (s : R) : Prop :=
  linear_noise n /\ noise_ok n /\ noise_dim n = k /\ forall r, length r = k -> whiten_residual n r = Ok (vscale s r).

Section Graph.
Variable E : env R.
Variable fs : list (factor R).
(* the linear part of the model at val, halved: A^T r as a linear form on tangent vectors *)
Definition pull_at (val : var -> pytree R) (xi : var -> list R) (f : factor R) : R :=
  match whitened_at E val f with
  | Ok w => match whitened_jacobians_at E val f w with
            | Ok Js => vdot w (pushed (residual_dim f) (f_vars f) Js xi)
            | Err _ => 0
            end
  | Err _ => 0
  end.
Definition pull (val : var -> pytree R) (xi : var -> list R) : R := vsum (map (pull_at val xi) fs).
Definition balanced (val : var -> pytree R) : Prop := forall xi, tangent E fs xi -> pull val xi = 0.
End Graph.

(* the pose at the fraction k of the way from p to q *)
Definition on_the_way (raw : lie_ops R (list R)) (k : R) (p q : list R) : list R :=
  lie_retract raw p (vscale k (lg_log raw (lg_mul raw (lg_inv raw p) q))).

(* Gaussian noise that whitens like n0, up to a constant factor *)
Definition multiple (n0 : noise R) (s : R) (n : noise R) : Prop :=
  linear_noise n /\ noise_ok n /\ noise_dim n = noise_dim n0 /\
  forall r w, length r = noise_dim n0 -> whiten_residual n0 r = Ok w -> whiten_residual n r = Ok (vscale s w).
(* two measurements of one pose *)
Definition two_priors (v : var) (p : list R) (n : noise R) (q : list R) (n' : noise R) : list (factor R) :=
  [prior_make v (group_value (v_ty v) p) n; prior_make v (group_value (v_ty v) q) n'].

(* started at val, each of the four nonlinear solvers returns val *)
Definition stays (E : env R) (fs : list (factor R)) (g : graph R) (init : assign R) (val : var -> pytree R) : Prop := forall fuel,
  (forall cfg, (iteration_cap (max_iterations cfg) <= fuel)%nat -> exists a', gn_solve E fuel cfg cholmod_solve g init = Some (Ok a') /\ assigns E fs a' val) /\
  (forall unroll it, same_layout (as_layout init) (g_layout g) -> (1 <= it)%Z -> (Z.to_nat it <= fuel)%nat ->
     exists a', fixed_solve E fuel unroll it cholmod_solve g init = Some (Ok a') /\ assigns E fs a' val) /\
  (forall cfg, (iteration_cap (max_iterations (lm_term cfg)) <= fuel)%nat -> 0 < lambda_initial cfg -> 0 < lambda_factor cfg -> 0 < lambda_min cfg ->
     exists a', lm_solve E fuel cfg cholmod_solve g init = Some (Ok a') /\ assigns E fs a' val) /\
  (forall cfg, (iteration_cap (max_iterations (dl_term cfg)) <= fuel)%nat -> 0 < radius_initial cfg ->
     exists a', dl_solve E fuel cfg cholmod_solve g init = Some (Ok a') /\ assigns E fs a' val).
