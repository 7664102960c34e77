(* Specification vocabulary: the iterations of the solvers as a textbook states them, in terms
   of the values of the variables, one tangent vector per variable and sums over the factors.
   Nothing here mentions stacks, storage layouts, sparse matrices or linear systems. *)
From Coq Require Import List Arith Bool Reals.
From Verif Require Import Num NumR Py Arr MLayout MAssign MNoise MSparse MFactor MGraph MLinear MSolver SpecLayout SpecTree SpecAssign SpecGraph SpecTwin.
Import ListNotations.
Local Open Scope R_scope.

(* k steps of a relation *)
Inductive turns {A} (step : A -> A -> Prop) : nat -> A -> A -> Prop :=
| turns_0 x : turns step 0 x x
| turns_S k x y z : step x y -> turns step k y z -> turns step (S k) x z.

Section Book.
Variable E : env R.
Variable fs : list (factor R).
Notation values := (var -> pytree R).
Notation field := (var -> list R).

Definition tangent (xi : field) : Prop := forall v, In v (mentioned fs) -> length (xi v) = vldim (e_cls E) v.
Definition agree (xi eta : field) : Prop := forall v, In v (mentioned fs) -> xi v = eta v.
Definition inner (xi eta : field) : R := vsum (map (fun v => vdot (xi v) (eta v)) (mentioned fs)).
Definition moved (val : values) (xi : field) (val' : values) : Prop :=
  forall v, In v (mentioned fs) -> retract (e_cls E (v_ty v)) (val v) (xi v) = Ok (val' v).

(* sum of the squared whitened residuals *)
Definition cost_at (val : values) : R :=
  vsum (map (fun f => match whitened_at E val f with Ok w => sumsq w | Err _ => 0 end) fs).
(* the same for the linearised residuals, moved by xi: Jacobians at val, residuals (and Huber
   weights) at old; see model_at in SpecTwin *)
Definition model (val old : values) (xi : field) : R := vsum (map (model_at E val old xi) fs).

(* the one minimiser of the damped model *)
Definition damped_step (beta : R) (val old : values) (xi : field) : Prop :=
  tangent xi /\ forall eta, tangent eta ->
    model val old xi + beta * inner xi xi <= model val old eta + beta * inner eta eta /\
    (model val old eta + beta * inner eta eta <= model val old xi + beta * inner xi xi -> agree eta xi).

(* Gauss-Newton *)
Definition gauss_newton_turn (val val' : values) : Prop :=
  exists xi, damped_step (1 / 100000) val val xi /\ moved val xi val'.

(* trust-region solvers: values, values at which the residuals were computed, lambda or radius *)
Record book := mkBook { b_val : values; b_old : values; b_extra : R }.
(* actual over predicted change of the cost (x / 0 = 0; JAX gives NaN or an infinity, C39, C73) *)
Definition quality (val old : values) (xi : field) (p : values) : R :=
  (cost_at p - cost_at val) / (model val old xi - cost_at val).
(* take the proposal p or stay; its residuals are kept in either case *)
Definition decided (qmin : R) (val old : values) (xi : field) (p : values) (extra : R -> bool -> R) (b' : book) : Prop :=
  let q := quality val old xi p in
  (qmin <= q /\ b' = mkBook p p (extra q true)) \/ (q < qmin /\ b' = mkBook val p (extra q false)).

(* Levenberg-Marquardt *)
Definition lm_turn (cfg : lm_cfg R) (b b' : book) : Prop :=
  exists xi p, damped_step (b_extra b + 1 / 100000) (b_val b) (b_old b) xi /\ moved (b_val b) xi p /\
    decided (lm_quality_min cfg) (b_val b) (b_old b) xi p
      (fun _ accept => if accept then b_extra b / lambda_factor cfg
                       else Rmax (lambda_min cfg) (Rmin (b_extra b * lambda_factor cfg) (lambda_max cfg))) b'.

(* Powell's dogleg: minus half the gradient of the model; the best point in that direction;
   the point of the dogleg path at distance radius *)
Definition downhill (val old : values) (sd : field) : Prop :=
  tangent sd /\ forall eta, tangent eta -> model val old eta - model val old (fun v => vneg (eta v)) = - 4 * inner sd eta.
Definition along (t : R) (sd : field) : field := fun v => vscale t (sd v).
Definition cauchy_point (val old : values) (a : field) : Prop :=
  exists sd t, downhill val old sd /\ agree a (along t sd) /\ forall t', model val old (along t sd) <= model val old (along t' sd).
Definition size (xi : field) : R := sqrt (inner xi xi).
Definition dogleg_point (radius : R) (val old : values) (xi : field) : Prop :=
  exists gn, damped_step (1 / 100000) val old gn /\
    ((size gn <= radius /\ agree xi gn) \/
     (radius < size gn /\ size xi = radius /\ exists a, cauchy_point val old a /\
        ((radius <= size a /\ agree xi (along (radius / size a) a)) \/
         (size a < radius /\ exists beta, 0 < beta <= 1 /\ agree xi (fun v => vadd (a v) (vscale beta (vsub (gn v) (a v)))))))).
Definition dogleg_turn (cfg : dl_cfg R) (b b' : book) : Prop :=
  exists xi p, dogleg_point (b_extra b) (b_val b) (b_old b) xi /\ moved (b_val b) xi p /\
    decided (dl_quality_min cfg) (b_val b) (b_old b) xi p
      (fun q _ => if Rlt_dec q (1 / 4) then b_extra b / 2
                  else if Rlt_dec (3 / 4) q then Rmax (b_extra b) (3 * size xi) else b_extra b) b'.

(* the solver state s: the values val in the order of the graph, the residual vector at old *)
Definition carries (g : graph R) (s : sstate R) (val old : values) : Prop :=
  assigns E fs (s_assign s) val /\ same_layout (as_layout (s_assign s)) (g_layout g) /\ s_cost s = cost_at val /\
  exists b c, assigns E fs b old /\ same_layout (as_layout b) (g_layout g) /\ compute_cost E g b = Ok (c, s_res s).
End Book.
