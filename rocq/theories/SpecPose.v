(* Specification vocabulary for pose graphs: the groups of jaxlie as functions of parameter
   vectors (exact reals, without the Taylor branches used near angle 0). *)
From Coq Require Import List Arith Reals.
From Verif Require Import Num NumR Py Arr MLayout MAssign MNoise MSparse MFactor MLie MPose SpecLie SpecGraph.
Import ListNotations.
Local Open Scope R_scope.

Notation "x '.[' k ]" := (nth k x 0) (at level 9, k at level 9, format "x .[ k ]").

(* arctan2(s, c) in (-pi, pi] *)
Definition atan2 (s c : R) : R :=
  let n := sqrt (c * c + s * s) in
  if Req_EM_T n 0 then 0 else if Rlt_dec s 0 then - acos (c / n) else acos (c / n).

(* ----- SO2: (cos, sin) ----- *)
Definition so2_mul (a b : list R) : list R := [a.[0] * b.[0] - a.[1] * b.[1]; a.[1] * b.[0] + a.[0] * b.[1]].
Definition so2_inv (a : list R) : list R := [a.[0]; - a.[1]].
Definition so2_exp (d : list R) : list R := [cos d.[0]; sin d.[0]].
Definition raw_so2 : lie_ops R (list R) := mkLie [1; 0] so2_mul so2_inv so2_exp
  (fun a => [atan2 a.[1] a.[0]]) (fun _ => [[1]]) 1.

(* ----- SE2: (cos, sin, x, y) ----- *)
Definition se2_mul (a b : list R) : list R :=
  [a.[0] * b.[0] - a.[1] * b.[1]; a.[1] * b.[0] + a.[0] * b.[1];
   a.[0] * b.[2] - a.[1] * b.[3] + a.[2]; a.[1] * b.[2] + a.[0] * b.[3] + a.[3]].
Definition se2_inv (a : list R) : list R :=
  [a.[0]; - a.[1]; - (a.[0] * a.[2] + a.[1] * a.[3]); - (- a.[1] * a.[2] + a.[0] * a.[3])].
Definition se2_exp (d : list R) : list R :=
  [cos d.[2]; sin d.[2]; v_s d.[2] * d.[0] - v_c d.[2] * d.[1]; v_c d.[2] * d.[0] + v_s d.[2] * d.[1]].
Definition se2_log (a : list R) : list R :=
  let t := atan2 a.[1] a.[0] in
  [v_a t * a.[2] + t / 2 * a.[3]; - (t / 2) * a.[2] + v_a t * a.[3]; t].
Definition se2_adj (a : list R) : list (list R) :=
  [[a.[0]; - a.[1]; a.[3]]; [a.[1]; a.[0]; - a.[2]]; [0; 0; 1]].
Definition raw_se2 : lie_ops R (list R) := mkLie [1; 0; 0; 0] se2_mul se2_inv se2_exp se2_log se2_adj 3.

(* ----- SO3: unit quaternion (w, x, y, z) ----- *)
Definition quat_mul (a b : list R) : list R :=
  [- a.[1] * b.[1] - a.[2] * b.[2] - a.[3] * b.[3] + a.[0] * b.[0];
   a.[1] * b.[0] + a.[2] * b.[3] - a.[3] * b.[2] + a.[0] * b.[1];
   - a.[1] * b.[3] + a.[2] * b.[0] + a.[3] * b.[1] + a.[0] * b.[2];
   a.[1] * b.[2] - a.[2] * b.[1] + a.[3] * b.[0] + a.[0] * b.[3]].
Definition quat_conj (a : list R) : list R := [a.[0]; - a.[1]; - a.[2]; - a.[3]].
(* angle and (sin (t/2)) / t *)
Definition len3 (d : list R) : R := sqrt (d.[0] * d.[0] + d.[1] * d.[1] + d.[2] * d.[2]).
Definition half_sinc (t : R) : R := if Req_EM_T t 0 then 1 / 2 else sin (t / 2) / t.
Definition quat_exp (d : list R) : list R :=
  let t := len3 d in [cos (t / 2); half_sinc t * d.[0]; half_sinc t * d.[1]; half_sinc t * d.[2]].
Definition quat_log_factor (w n : R) : R :=
  if Req_EM_T n 0 then 2 / w else if Req_EM_T w 0 then PI / n else 2 * atan (n / w) / n.
Definition quat_log (a : list R) : list R :=
  vscale (quat_log_factor a.[0] (len3 (tl a))) [a.[1]; a.[2]; a.[3]].
(* rotate a 3-vector: q v q^-1 *)
Definition quat_apply (a v : list R) : list R := tl (quat_mul (quat_mul a [0; v.[0]; v.[1]; v.[2]]) (quat_conj a)).
(* the rotation matrix: images of the basis vectors, as columns *)
Definition quat_matrix (a : list R) : list (list R) :=
  map (fun i => map (fun v => nth i (quat_apply a v) 0) [[1; 0; 0]; [0; 1; 0]; [0; 0; 1]]) [0%nat; 1%nat; 2%nat].
Definition raw_so3 : lie_ops R (list R) := mkLie [1; 0; 0; 0] quat_mul quat_conj quat_exp quat_log quat_matrix 3.

(* ----- SE3: (w, x, y, z, tx, ty, tz); tangent (translation, rotation) ----- *)
Definition rot_part (a : list R) : list R := [a.[0]; a.[1]; a.[2]; a.[3]].
Definition tra_part (a : list R) : list R := [a.[4]; a.[5]; a.[6]].
Definition cross (a b : list R) : list R :=
  [a.[1] * b.[2] - a.[2] * b.[1]; a.[2] * b.[0] - a.[0] * b.[2]; a.[0] * b.[1] - a.[1] * b.[0]].
Definition se3_mul (a b : list R) : list R :=
  quat_mul (rot_part a) (rot_part b) ++ vadd (quat_apply (rot_part a) (tra_part b)) (tra_part a).
Definition se3_inv (a : list R) : list R :=
  quat_conj (rot_part a) ++ vneg (quat_apply (quat_conj (rot_part a)) (tra_part a)).
Definition se3_exp (d : list R) : list R :=
  let w := [d.[3]; d.[4]; d.[5]] in let v := [d.[0]; d.[1]; d.[2]] in let t := len3 w in
  quat_exp w ++ (if Req_EM_T t 0 then v
                 else vadd v (vadd (vscale ((1 - cos t) / (t * t)) (cross w v))
                                   (vscale ((t - sin t) / (t * t * t)) (cross w (cross w v))))).
Definition se3_log (a : list R) : list R :=
  let w := quat_log (rot_part a) in let v := tra_part a in let t := len3 w in
  (if Req_EM_T t 0 then v
   else vadd v (vadd (vscale (- (1 / 2)) (cross w v))
                     (vscale ((1 - t * cos (t / 2) / (2 * sin (t / 2))) / (t * t)) (cross w (cross w v))))) ++ w.
Definition se3_adj (a : list R) : list (list R) :=
  let Rm := quat_matrix (rot_part a) in
  let tR := map (fun i => map (fun j => nth i (cross (tra_part a) (mcol j Rm)) 0) [0%nat; 1%nat; 2%nat]) [0%nat; 1%nat; 2%nat] in
  zipw (fun r t => r ++ t) Rm tR ++ map (fun r => [0; 0; 0] ++ r) Rm.
Definition raw_se3 : lie_ops R (list R) := mkLie [1; 0; 0; 0; 0; 0; 0] se3_mul se3_inv se3_exp se3_log se3_adj 6.

(* the group types of _lie_variables.py:58-83 *)
Inductive planar : lie_ops R (list R) -> Prop := planar_so2 : planar raw_so2 | planar_se2 : planar raw_se2.
Inductive spatial : lie_ops R (list R) -> Prop := spatial_so3 : spatial raw_so3 | spatial_se3 : spatial raw_se3.

(* squared norm of the rotation parameters: cos^2 + sin^2, or of the quaternion *)
Definition norm2 (x : list R) : R := x.[0] * x.[0] + x.[1] * x.[1].
Definition norm4 (x : list R) : R := x.[0] * x.[0] + x.[1] * x.[1] + x.[2] * x.[2] + x.[3] * x.[3].

(* raw operations that act on the parameter vectors rep g as the group L acts on its elements *)
Record represents {G} (rep : G -> list R) (raw : lie_ops R (list R)) (L : lie_ops R G) : Prop := mkRep {
  rp_one : lg_one raw = rep (lg_one L);
  rp_mul : forall a b, lg_mul raw (rep a) (rep b) = rep (lg_mul L a b);
  rp_inv : forall a, lg_inv raw (rep a) = rep (lg_inv L a);
  rp_exp : forall d, length d = lg_dim L -> lg_exp raw d = rep (lg_exp L d);
  rp_log : forall a, lg_log raw (rep a) = lg_log L a;
  rp_adj : forall a, lg_adj raw (rep a) = lg_adj L a;
  rp_dim : lg_dim raw = lg_dim L;
  rp_length : forall a, length (rep a) = length (lg_one raw) }.
Definition rot_params (a : rot) : list R := [rc a; rs a].
Definition pose_params (a : pose) : list R := [rc (pr a); rs (pr a); px a; py a].

(* a value of a pose variable: a jaxlie object of the right class and size *)
Definition pose_value (groups : vty -> lie_ops R (list R)) (t : vty) (x : pytree R) : Prop :=
  exists p, x = group_value t p /\ length p = length (lg_one (groups t)).

(* a PriorFactor or BetweenFactor built by its make function, with a noise model of the
   group's tangent dimension *)
Inductive pose_factor (groups : vty -> lie_ops R (list R)) : factor R -> Prop :=
| pf_prior v mu n : pose_value groups (v_ty v) mu -> noise_ok n -> noise_dim n = lg_dim (groups (v_ty v)) ->
    pose_factor groups (prior_make v mu n)
| pf_between va vb Tab n f : between_make va vb Tab n = Ok f -> pose_value groups (v_ty va) Tab -> noise_ok n ->
    noise_dim n = lg_dim (groups (v_ty va)) -> pose_factor groups f.
