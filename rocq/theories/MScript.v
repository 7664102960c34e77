(* Model of scripts/pose_graph_g2o.py:50-110: from the parsed file to the solution. *)
From Coq Require Import List Arith Bool ZArith.
From Verif Require Import Num Py Arr MLayout MAssign MNoise MSparse MFactor MGraph MLie MPose.
From Verif Require MG2o.
Import ListNotations.

Section Model.
Context {T : Type} {N : Num T}.
Notation gfactor := (MG2o.gfactor (T := T) (P := list T)).

(* SE2Variable and SE3Variable as class numbers *)
Definition kind_ty (k : MG2o.pose_kind) : vty := match k with MG2o.SE2 => 0 | MG2o.SE3 => 1 end.
Definition pose_var (v : MG2o.pvar) : var := mkVar (MG2o.pv_id v) (kind_ty (MG2o.pv_kind v)).

(* the factor objects appended by parse_g2o (_g2o_utils.py:65-75, 112-121, 126-134).  The
   noise arrays are (n, n) and (n,), the pose is a jaxlie object of the variable's class;
   BetweenFactor.make's assertions are checked by the reader (MG2o.between_make). *)
Definition to_factor (f : gfactor) : factor T :=
  match f with
  | MG2o.GBetween a b t w =>
      mkFactor 1 [pose_var a; pose_var b] (Gaussian (mkArr [length w; length w] (concat w)))
               [group_value (kind_ty (MG2o.pv_kind a)) t]
  | MG2o.GPrior v mu d =>
      prior_make (pose_var v) (group_value (kind_ty (MG2o.pv_kind v)) mu) (DiagGaussian (mkArr [length d] d))
  end.

(* pose_graph_g2o.py:60-72 *)
Definition wrap_huber (delta : option T) (f : factor T) : factor T :=
  match delta with
  | None => f
  | Some d => mkFactor (f_cls f) (f_vars f) (Huber (f_noise f) (mkArr [] [d])) (f_params f)
  end.
Definition script_factors (delta : option T) (fs : list gfactor) : list (factor T) :=
  map (fun f => wrap_huber delta (to_factor f)) fs.

(* :78-79 the argument of make_from_dict *)
Definition script_poses (ps : list (MG2o.pvar * list T)) : dict var (pytree T) :=
  map (fun vp => (pose_var (fst vp), group_value (kind_ty (MG2o.pv_kind (fst vp))) (snd vp))) ps.

Definition then_ {A B} (r : option (result A)) (k : A -> option (result B)) : option (result B) :=
  match r with
  | None => None
  | Some (Err e) => Some (Err e)
  | Some (Ok x) => k x
  end.

(* :74-107.  [once] is the chosen solver with max_iterations=1, [full] the chosen solver; two
   timing runs are made before the full solve, unless the solver is the fixed-iteration one
   (None).  Result None: a loop ran out of fuel. *)
Definition script (E : env T) (once : option (graph T -> assign T -> option (result (assign T))))
    (full : graph T -> assign T -> option (result (assign T)))
    (delta : option T) (fs : list gfactor) (ps : list (MG2o.pvar * list T)) : option (result (assign T)) :=
  then_ (Some (graph_make E (script_factors delta fs))) (fun g =>
  then_ (Some (make_from_dict (e_cls E) (script_poses ps))) (fun init =>
  then_ (match once with
         | Some s => then_ (s g init) (fun _ => then_ (s g init) (fun _ => Some (Ok tt)))
         | None => Some (Ok tt)
         end) (fun _ => full g init))).
End Model.
