(* Theorem C65: linear least-squares problems are solved to the optimum, at a known rate. *)
From Coq Require Import List Arith Bool ZArith Reals.
From Verif Require Import Num NumR Py Arr MLayout MAssign MNoise MSparse MFactor MGraph MLinear MSolver SpecLayout SpecTree SpecAssign SpecGraph SpecSparse SpecDeriv SpecSolver SpecOrder SpecInv SpecLin.
From Verif Require Import Ex ExG ExS PExSym PExLin PExLinDl.
Import ListNotations.
Local Open Scope R_scope.

Theorem C65_linear_solves :
  forall (E : env R) fs g, linear_problem E fs -> well_posed E fs -> graph_make E fs = Ok g ->
  forall init val0 z valz cz rz, assigns E fs init val0 -> assigns E fs z valz -> compute_cost E g z = Ok (cz, rz) ->
  (forall cfg fuel a', gn_solve E fuel cfg cholmod_solve g init = Some (Ok a') ->
     exists c r, compute_cost E g a' = Ok (c, r) /\ c <= cz + 1 / 100000 * distance2 fs val0 valz) /\
  (forall cfg fuel a', 0 <= lambda_initial cfg -> 1 <= lambda_factor cfg -> 0 <= lambda_min cfg -> lm_quality_min cfg <= 1 ->
     lm_solve E fuel cfg cholmod_solve g init = Some (Ok a') ->
     exists c r, compute_cost E g a' = Ok (c, r) /\ c <= cz + (lambda_initial cfg + 1 / 100000) * distance2 fs val0 valz) /\
  (forall fuel unroll it, same_layout (as_layout init) (g_layout g) -> (1 <= it)%Z -> (Z.to_nat it <= fuel)%nat ->
     exists a' c r, fixed_solve E fuel unroll it cholmod_solve g init = Some (Ok a') /\ compute_cost E g a' = Ok (c, r) /\
       c <= cz + 1 / 100000 * distance2 fs val0 valz / IZR it).
Proof. exact linear_solves. Qed.
Print Assumptions C65_linear_solves.

Theorem C65_rate :
  forall (E : env R) fs g, linear_problem E fs -> well_posed E fs -> graph_make E fs = Ok g ->
  forall a val c0 r0 z valz cz rz, assigns E fs a val -> same_layout (as_layout a) (g_layout g) -> compute_cost E g a = Ok (c0, r0) ->
  assigns E fs z valz -> compute_cost E g z = Ok (cz, rz) -> forall k st, (1 <= k)%nat ->
  (forall cfg, runs (gn_step E cfg cholmod_solve g) k (mkState 0 a c0 r0 false 0) st ->
     current E g st /\ s_cost st <= c0 /\ s_cost st <= cz + 1 / 100000 * distance2 fs val valz / INR k) /\
  (forall cfg, 0 <= lambda_initial cfg -> 1 <= lambda_factor cfg -> 0 <= lambda_min cfg -> lm_quality_min cfg <= 1 ->
     runs (lm_step E cfg cholmod_solve g) k (mkState 0 a c0 r0 false (lambda_initial cfg)) st ->
     current E g st /\ s_cost st <= c0 /\ s_cost st <= cz + (lambda_initial cfg + 1 / 100000) * distance2 fs val valz / INR k).
Proof. exact linear_runs. Qed.
Print Assumptions C65_rate.

Example C65_example : linear_problem exLE chain_fs /\ well_posed exLE chain_fs /\
  (exists g, graph_make exLE chain_fs = Ok g /\ exists c r, compute_cost exLE g (scalars [vx; vy] [1; 7]) = Ok (c, r) /\ c = 64) /\
  assigns exLE chain_fs (scalars [vx; vy] [0; 0]) (fun v => if Nat.eqb (v_id v) 0 then leaf1 [0] else leaf1 [0]) /\
  assigns exLE chain_fs (scalars [vx; vy] [1; 7]) (fun v => if Nat.eqb (v_id v) 0 then leaf1 [1] else leaf1 [7]).
Proof. exact linear_example. Qed.

(* a minimum of the cost always exists *)
Theorem C65_minimum :
  forall (E : env R) fs g, linear_problem E fs -> well_posed E fs -> graph_make E fs = Ok g ->
  forall init val0, assigns E fs init val0 -> exists z valz cz rz, is_minimum E fs g z valz cz rz.
Proof. exact linear_minimum. Qed.
Print Assumptions C65_minimum.

(* Dogleg: K steps can be cut short by the trust region, the others are Gauss-Newton steps *)
Theorem C65_dogleg :
  forall (E : env R) fs g, linear_problem E fs -> well_posed E fs -> graph_make E fs = Ok g ->
  forall z valz cz rz cfg, is_minimum E fs g z valz cz rz -> 0 < radius_initial cfg -> dl_quality_min cfg <= 1 ->
  (forall a val c0 r0 k st, assigns E fs a val -> same_layout (as_layout a) (g_layout g) -> compute_cost E g a = Ok (c0, r0) ->
     runs (dl_step E cfg cholmod_solve g) k (mkState 0 a c0 r0 false (radius_initial cfg)) st ->
     current E g st /\ s_cost st <= c0 /\
     forall K, distance2 fs val valz <= (3 ^ K * radius_initial cfg) * (3 ^ K * radius_initial cfg) -> (K < k)%nat ->
       s_cost st <= cz + 1 / 100000 * distance2 fs val valz / (INR k - INR K)) /\
  (forall fuel init val0 a', assigns E fs init val0 -> dl_solve E fuel cfg cholmod_solve g init = Some (Ok a') ->
     exists c r, compute_cost E g a' = Ok (c, r) /\ (forall c0 r0, compute_cost E g init = Ok (c0, r0) -> c <= c0) /\
       (distance2 fs val0 valz <= radius_initial cfg * radius_initial cfg -> c <= cz + 1 / 100000 * distance2 fs val0 valz)).
Proof. exact linear_dogleg. Qed.
Print Assumptions C65_dogleg.

Example C65_example_dogleg : exists g, graph_make exLE chain_fs = Ok g /\
  (exists rz, is_minimum exLE chain_fs g (scalars [vx; vy] [25/9; 47/9]) (fun v => if Nat.eqb (v_id v) 0 then leaf1 [25/9] else leaf1 [47/9]) (64/9) rz) /\
  0 < radius_initial (dl_default 100) /\ dl_quality_min (dl_default 100) <= 1 /\
  distance2 chain_fs (fun _ => leaf1 [0]) (fun v => if Nat.eqb (v_id v) 0 then leaf1 [25/9] else leaf1 [47/9]) <= (3 ^ 2 * radius_initial (dl_default 100)) * (3 ^ 2 * radius_initial (dl_default 100)).
Proof. exact chain_minimum. Qed.

(* two iterations do not reach the minimum, because of the 1e-5 on the diagonal *)
Theorem C65_exact_refuted : exists (E : env R) fs g init z val valz cz rz a' c r, linear_problem E fs /\ well_posed E fs /\ graph_make E fs = Ok g /\
  assigns E fs init val /\ assigns E fs z valz /\ compute_cost E g z = Ok (cz, rz) /\
  gn_solve E 2 (term_default 2) cholmod_solve g init = Some (Ok a') /\ compute_cost E g a' = Ok (c, r) /\ cz < c.
Proof. exact not_exact. Qed.
Print Assumptions C65_exact_refuted.
