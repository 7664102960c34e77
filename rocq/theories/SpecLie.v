(* Specification vocabulary for Lie groups, and the two planar groups of jaxlie over the
   exact reals (its SO2 and SE2 without the Taylor branch used near angle 0). *)
From Coq Require Import List Arith Reals.
From Verif Require Import Num NumR MLie SpecNoise.
Import ListNotations.
Local Open Scope R_scope.

Record group_laws {G} (L : lie_ops R G) : Prop := mkGL {
  gl_assoc : forall a b c, lg_mul L a (lg_mul L b c) = lg_mul L (lg_mul L a b) c;
  gl_one_l : forall a, lg_mul L (lg_one L) a = a;
  gl_one_r : forall a, lg_mul L a (lg_one L) = a;
  gl_inv_l : forall a, lg_mul L (lg_inv L a) a = lg_one L;
  gl_inv_r : forall a, lg_mul L a (lg_inv L a) = lg_one L }.
(* the logarithm vanishes at the identity and nowhere else *)
Definition log_faithful {G} (L : lie_ops R G) : Prop :=
  forall g, lg_log L g = vzero (lg_dim L) <-> g = lg_one L.

(* [near] is the set of tangent vectors on which the exponential is injective *)
Record lie_laws {G} (L : lie_ops R G) (near : list R -> Prop) : Prop := mkLL {
  ll_group : group_laws L;
  ll_log_dim : forall g, length (lg_log L g) = lg_dim L;
  ll_exp_zero : lg_exp L (vzero (lg_dim L)) = lg_one L;
  ll_exp_log : forall g, lg_exp L (lg_log L g) = g;
  ll_log_exp : forall d, length d = lg_dim L -> near d -> lg_log L (lg_exp L d) = d;
  ll_exp_neg : forall d, length d = lg_dim L -> lg_exp L (vneg d) = lg_inv L (lg_exp L d);
  ll_adj_shape : forall g, shaped (lg_dim L) (lg_dim L) (lg_adj L g);
  ll_adj : forall g d, length d = lg_dim L -> lg_exp L (mvec (lg_adj L g) d) = lg_mul L (lg_mul L g (lg_exp L d)) (lg_inv L g);
  ll_near : exists e, 0 < e /\ forall d, length d = lg_dim L -> (forall k, Rabs (nth k d 0) < e) -> near d }.

(* ----- SO(2): the unit complex number c + i s ----- *)
Record rot := mkRot { rc : R; rs : R; r_unit : rc * rc + rs * rs = 1 }.
Lemma rot_one_unit : 1 * 1 + 0 * 0 = 1. Proof. ring. Qed.
Definition rot_one := mkRot 1 0 rot_one_unit.
Lemma rot_mul_unit a b : (rc a * rc b - rs a * rs b) * (rc a * rc b - rs a * rs b) + (rs a * rc b + rc a * rs b) * (rs a * rc b + rc a * rs b) = 1.
Proof. transitivity ((rc a * rc a + rs a * rs a) * (rc b * rc b + rs b * rs b)); [ring|]. rewrite !r_unit. ring. Qed.
Definition rot_mul a b := mkRot (rc a * rc b - rs a * rs b) (rs a * rc b + rc a * rs b) (rot_mul_unit a b).
Lemma rot_inv_unit a : rc a * rc a + - rs a * - rs a = 1.
Proof. rewrite <- (r_unit a). ring. Qed.
Definition rot_inv a := mkRot (rc a) (- rs a) (rot_inv_unit a).
Lemma rot_exp_unit t : cos t * cos t + sin t * sin t = 1.
Proof. pose proof (sin2_cos2 t) as H. unfold Rsqr in H. rewrite <- H. ring. Qed.
Definition rot_exp t := mkRot (cos t) (sin t) (rot_exp_unit t).
(* arctan2(s, c) on the unit circle, in (-pi, pi] *)
Definition angle a : R := if Rlt_dec (rs a) 0 then - acos (rc a) else acos (rc a).

Definition SO2 : lie_ops R rot := mkLie rot_one rot_mul rot_inv
  (fun d => rot_exp (nth 0 d 0)) (fun a => [angle a]) (fun _ => [[1]]) 1.
Definition near_so2 (d : list R) : Prop := - PI < nth 0 d 0 < PI.

(* ----- SE(2): a rotation and a translation; tangent (x, y, theta) ----- *)
Record pose := mkPose { pr : rot; px : R; py : R }.
Definition pose_one := mkPose rot_one 0 0.
Definition pose_mul a b := mkPose (rot_mul (pr a) (pr b))
  (rc (pr a) * px b - rs (pr a) * py b + px a) (rs (pr a) * px b + rc (pr a) * py b + py a).
Definition pose_inv a := mkPose (rot_inv (pr a))
  (- (rc (pr a) * px a + rs (pr a) * py a)) (- (- rs (pr a) * px a + rc (pr a) * py a)).
(* V = [[S, -C], [C, S]] with S = sin t / t, C = (1 - cos t) / t *)
Definition v_s t : R := if Req_EM_T t 0 then 1 else sin t / t.
Definition v_c t : R := if Req_EM_T t 0 then 0 else (1 - cos t) / t.
Definition pose_exp (d : list R) :=
  let x := nth 0 d 0 in let y := nth 1 d 0 in let t := nth 2 d 0 in
  mkPose (rot_exp t) (v_s t * x - v_c t * y) (v_c t * x + v_s t * y).
(* V^-1 = [[A, t/2], [-t/2, A]] with A = (t/2) sin t / (1 - cos t) = (t/2) / tan (t/2) *)
Definition v_a t : R := if Req_EM_T t 0 then 1 else - (t / 2 * sin t) / (cos t - 1).
Definition pose_log a : list R :=
  let t := angle (pr a) in
  [v_a t * px a + t / 2 * py a; - (t / 2) * px a + v_a t * py a; t].
Definition pose_adj a : list (list R) :=
  [[rc (pr a); - rs (pr a); py a]; [rs (pr a); rc (pr a); - px a]; [0; 0; 1]].
Definition SE2 : lie_ops R pose := mkLie pose_one pose_mul pose_inv pose_exp pose_log pose_adj 3.
Definition near_se2 (d : list R) : Prop := - PI < nth 2 d 0 < PI.
