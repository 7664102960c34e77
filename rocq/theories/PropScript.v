(* Theorem C67: the g2o script, from the text of the file to the solution. *)
From Coq Require Import String List Arith Bool ZArith Reals.
From Verif Require Import Num NumR Py Arr MLayout MAssign MNoise MSparse MFactor MGraph MLinear MSolver MLie MPose SpecLayout SpecTree SpecAssign SpecGraph SpecSparse SpecSolver SpecOrder SpecInv SpecPose MG2o MScript SpecScript.
From Verif Require Import PScript PExG2o PExScript.
Import ListNotations.

Theorem C67_graph_and_poses :
  forall parse_int parse_float cholesky limit text delta fs ps,
  parse_text parse_int parse_float se2_of se3_of se3_of_parts cholesky limit text = Ok (fs, ps) ->
  exists g init, graph_make script_env (script_factors delta fs) = Ok g /\
    make_from_dict (e_cls script_env) (script_poses ps) = Ok init /\
    wf_assign (e_cls script_env) (map pose_var (map fst ps)) false init /\
    forall v p, In (v, p) ps -> get_value (e_cls script_env) init (pose_var v) = Ok (group_value (kind_ty (pv_kind v)) p).
Proof. exact script_builds. Qed.
Print Assumptions C67_graph_and_poses.

Theorem C67_objective :
  forall parse_int parse_float cholesky limit text delta fs ps,
  parse_text parse_int parse_float se2_of se3_of se3_of_parts cholesky limit text = Ok (fs, ps) ->
  forall g a val, (forall d, delta = Some d -> (0 < d)%R) ->
  graph_make script_env (script_factors delta fs) = Ok g -> assigns script_env (script_factors delta fs) a val ->
  exists r, compute_cost script_env g a = Ok (vsum (map (edge_cost delta (fun v => params (val (pose_var v)))) fs), r).
Proof. exact script_objective. Qed.
Print Assumptions C67_objective.

Example C67_objective_example : exists fs ps, exr_parse 9 forward_file = Ok (fs, ps) /\
  vsum (map (edge_cost None file_pose) fs) = 1%R /\ vsum (map (edge_cost (Some (/ 2)%R) file_pose) fs) = (/ 2)%R.
Proof. exact forward_cost. Qed.

Theorem C67_solves :
  forall parse_int parse_float cholesky limit text delta fs ps,
  parse_text parse_int parse_float se2_of se3_of se3_of_parts cholesky limit text = Ok (fs, ps) -> all_touched fs ps ->
  forall lin step1 extra1 once step extra full, total_solver lin -> sized lin ->
  nonlinear_solver script_env lin step1 extra1 once -> nonlinear_solver script_env lin step extra full ->
  (forall fuel e, script script_env (Some (once fuel)) (full fuel) delta fs ps <> Some (Err e)) /\
  exists k, forall fuel, k <= fuel ->
    exists a, script script_env (Some (once fuel)) (full fuel) delta fs ps = Some (Ok a) /\ solved_poses ps a.
Proof. exact script_succeeds. Qed.
Print Assumptions C67_solves.

Theorem C67_unconnected_pose_raises :
  forall parse_int parse_float cholesky limit text delta fs ps,
  parse_text parse_int parse_float se2_of se3_of se3_of_parts cholesky limit text = Ok (fs, ps) -> ~ all_touched fs ps ->
  forall lin step1 extra1 once step extra full,
  nonlinear_solver script_env lin step1 extra1 once -> nonlinear_solver script_env lin step extra full ->
  forall fuel, script script_env (Some (once fuel)) (full fuel) delta fs ps = Some (Err AssertionError).
Proof. exact script_isolated. Qed.
Print Assumptions C67_unconnected_pose_raises.

Theorem C67_fixed_iteration :
  forall parse_int parse_float cholesky limit text delta fs ps,
  parse_text parse_int parse_float se2_of se3_of se3_of_parts cholesky limit text = Ok (fs, ps) ->
  mentioned (script_factors delta fs) = map pose_var (map fst ps) ->
  forall lin fuel unroll it, total_solver lin -> sized lin ->
  (forall e, script script_env None (fixed_solve script_env fuel unroll it lin) delta fs ps <> Some (Err e)) /\
  ((1 <= it)%Z -> Z.to_nat it <= fuel ->
     exists a, script script_env None (fixed_solve script_env fuel unroll it lin) delta fs ps = Some (Ok a) /\ solved_poses ps a).
Proof. exact script_fixed. Qed.
Print Assumptions C67_fixed_iteration.

Theorem C67_file_order_refuted :
  exists fs ps g init, exr_parse 9 backward_file = Ok (fs, ps) /\ all_touched fs ps /\
  graph_make script_env (script_factors None fs) = Ok g /\ make_from_dict (e_cls script_env) (script_poses ps) = Ok init /\
  ~ same_layout (as_layout init) (g_layout g).
Proof. exact backward_reads. Qed.
Print Assumptions C67_file_order_refuted.

Theorem C67_pose_limit_refuted :
  (exists fs ps, exr_parse 9 detour_file = Ok (fs, ps) /\ all_touched fs ps) /\
  exists fs ps, exr_parse 1 detour_file = Ok (fs, ps) /\
  forall delta lin step1 extra1 once step extra full,
  nonlinear_solver script_env lin step1 extra1 once -> nonlinear_solver script_env lin step extra full ->
  forall fuel, script script_env (Some (once fuel)) (full fuel) delta fs ps = Some (Err AssertionError).
Proof. exact detour_reads. Qed.
Print Assumptions C67_pose_limit_refuted.

Example C67_example : exists fs ps, exr_parse 9 forward_file = Ok (fs, ps) /\ all_touched fs ps /\
  mentioned (script_factors None fs) = map pose_var (map fst ps).
Proof. exact forward_reads. Qed.
