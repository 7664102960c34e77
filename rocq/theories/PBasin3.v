(* Proofs: the four groups near the identity, with norms instead of components. *)
From Coq Require Import List Arith Bool Lia Reals Lra Psatz.
From Verif Require Import Num NumR MLie SpecNoise SpecLie SpecPose SpecZero SpecSpatial PVec PLie PExLie PPose PFrame PZero PJacZero PSolverR PNoise PLocal PSpatial PSpatial2 PSpatial3 PBasin PBasin2.
Import ListNotations.
Local Open Scope R_scope.

Lemma abs_le_inv x a : Rabs x <= a -> - a <= x <= a.
Proof. unfold Rabs. destruct (Rcase_abs x); lra. Qed.

(* ---- the planar groups ---- *)
Lemma v_a_lip : lip v_a.
Proof.
  destruct v_s_lip as (C & d & HC & Hd & H). destruct v_c_lip as (C' & d' & HC' & Hd' & H').
  set (e := Rmin (Rmin d d') (Rmin 1 (1 / (2 * (C + 1))))). assert (0 < 1 / (2 * (C + 1))) by (apply Rdiv_lt_0_compat; lra).
  assert (He : 0 < e) by (unfold e; repeat apply Rmin_pos; auto; lra). exists (2 * (C + C')), e. split; [lra|]. split; auto. intros t Ht.
  assert (T1 : Rabs t <= d) by (eapply Rle_trans; [exact Ht|]; eapply Rle_trans; [apply Rmin_l|apply Rmin_l]).
  assert (T2 : Rabs t <= d') by (eapply Rle_trans; [exact Ht|]; eapply Rle_trans; [apply Rmin_l|apply Rmin_r]).
  assert (T3 : Rabs t <= 1) by (eapply Rle_trans; [exact Ht|]; eapply Rle_trans; [apply Rmin_r|apply Rmin_l]).
  assert (T4 : Rabs t <= 1 / (2 * (C + 1))) by (eapply Rle_trans; [exact Ht|]; eapply Rle_trans; [apply Rmin_r|apply Rmin_r]).
  specialize (H t T1). specialize (H' t T2). rewrite v_s_0 in H. rewrite v_c_0, Rminus_0_r in H'. rewrite v_a_0.
  assert (Hpi : - PI < t <= PI). { pose proof PI2_1. pose proof (abs_le_inv t 1 T3). lra. }
  destruct (v_inv t Hpi) as (E & _). pose proof (Rabs_pos t) as Pt.
  assert (Hs : Rabs (v_s t - 1) <= 1 / 2).
  { eapply Rle_trans; [exact H|]. apply Rle_trans with ((C + 1) * (1 / (2 * (C + 1)))); [apply Rmult_le_compat; auto; lra|]. right. field. lra. }
  apply abs_le_inv in Hs. assert (Ev : v_a t - 1 = (- (v_s t - 1) - t / 2 * v_c t) / v_s t) by (apply (Rmult_eq_reg_r (v_s t)); [|lra]; field_simplify; [|lra]; lra).
  rewrite Ev. unfold Rdiv at 1. rewrite Rabs_mult, Rabs_inv, (Rabs_pos_eq (v_s t)) by lra. apply (Rmult_le_reg_r (v_s t)); [lra|]. rewrite Rmult_assoc, Rinv_l, Rmult_1_r by lra.
  apply Rle_trans with (Rabs (v_s t - 1) + Rabs t / 2 * Rabs (v_c t)).
  - eapply Rle_trans; [apply Rabs_triang|]. rewrite !Rabs_Ropp. rewrite Rabs_mult. unfold Rdiv. rewrite Rabs_mult, (Rabs_pos_eq (/ 2)) by lra. lra.
  - assert (Rabs t / 2 * Rabs (v_c t) <= 1 * (C' * Rabs t)) by (apply Rmult_le_compat; auto; try apply Rabs_pos; lra).
    assert (0 <= (C + C') * Rabs t) by (apply Rmult_le_pos; lra). replace (2 * (C + C') * Rabs t * v_s t) with ((C + C') * Rabs t * (2 * v_s t)) by ring.
    apply Rle_trans with ((C + C') * Rabs t * 1); [lra|]. apply Rmult_le_compat_l; auto. lra.
Qed.
Lemma atan2_angle t : - PI < t <= PI -> atan2 (sin t) (cos t) = t.
Proof.
  intros Ht. pose proof (rp_log _ _ _ so2_represented (rot_exp t)) as H. cbn in H. injection H as H. rewrite H. apply angle_exp; auto.
Qed.

Section Planar.
Context {P : Type}.
Variable u : P -> R.
Hypothesis Hu : forall p, 0 <= u p.
Notation O := (O u).
Variables X Y : P -> list R.
Hypotheses (HX : small u X) (HY : small u Y).

Lemma atan2_near k : exists d, 0 < d /\ forall p, u p <= d -> atan2 (- sin (X p).[k] * cos (Y p).[k] + cos (X p).[k] * sin (Y p).[k]) (cos (X p).[k] * cos (Y p).[k] - - sin (X p).[k] * sin (Y p).[k]) = (Y p).[k] - (X p).[k].
Proof.
  destruct (O_small u Hu 0 (fun p => (Y p).[k] - (X p).[k]) 1) as (d & Hd & H); [apply O_sub; auto | lra|]. exists d. split; auto. intros p Hp. specialize (H p Hp). apply Rabs_def2 in H.
  rewrite <- (atan2_angle ((Y p).[k] - (X p).[k])) by (pose proof PI2_1; lra). rewrite sin_minus, cos_minus. f_equal; ring.
Qed.
Lemma so2_log_near : O 2 (fun p => (lg_log raw_so2 (pairs raw_so2 X Y p)).[0] - ((Y p).[0] - (X p).[0])).
Proof.
  destruct (atan2_near 0) as (d & Hd & H). apply (O_local u 2 (fun _ => 0) _ d); auto; [|apply O_zero]. intros p Hp. specialize (H p Hp).
  cbn [raw_so2 lg_log pairs nth lg_mul lg_inv lg_exp]. unfold pairs, so2_mul, so2_inv, so2_exp. cbn [raw_so2 lg_log lg_mul lg_inv lg_exp nth so2_mul so2_inv so2_exp]. 
  unfold so2_mul, so2_inv, so2_exp. cbn [nth]. rewrite H. ring.
Qed.
Lemma trig_near (Z : P -> list R) k : small u Z -> O 1 (fun p => cos (Z p).[k] - 1) /\ O 1 (fun p => sin (Z p).[k]) /\ O 1 (fun p => v_s (Z p).[k] - 1) /\ O 1 (fun p => v_c (Z p).[k]).
Proof.
  intros HZ. split; [|split; [|split]].
  - rewrite <- cos_0. apply (O_comp u Hu cos _ 0 cos_lip). auto.
  - eapply O_ext; [|apply (O_comp u Hu sin _ 0 sin_lip (HZ k))]. intros p. cbv beta. rewrite sin_0. ring.
  - rewrite <- v_s_0. apply (O_comp u Hu v_s _ 0 v_s_lip). auto.
  - eapply O_ext; [|apply (O_comp u Hu v_c _ 0 v_c_lip (HZ k))]. intros p. cbv beta. rewrite v_c_0. ring.
Qed.
Definition bx (Z : P -> list R) p := v_s (Z p).[2] * (Z p).[0] - v_c (Z p).[2] * (Z p).[1].
Definition by_ (Z : P -> list R) p := v_c (Z p).[2] * (Z p).[0] + v_s (Z p).[2] * (Z p).[1].
Lemma b_near (Z : P -> list R) : small u Z -> O 2 (fun p => bx Z p - (Z p).[0]) /\ O 2 (fun p => by_ Z p - (Z p).[1]).
Proof.
  intros HZ. destruct (trig_near Z 2 HZ) as (_ & _ & Hs & Hc). unfold bx, by_. split.
  - apply (O_ext u 2 (fun p => (v_s (Z p).[2] - 1) * (Z p).[0] - v_c (Z p).[2] * (Z p).[1])); [intros; ring|]. apply O_sub; apply O_mul_1; auto.
  - apply (O_ext u 2 (fun p => v_c (Z p).[2] * (Z p).[0] + (v_s (Z p).[2] - 1) * (Z p).[1])); [intros; ring|]. apply O_add; apply O_mul_1; auto.
Qed.
Definition tx p := cos (X p).[2] * (bx Y p - bx X p) + sin (X p).[2] * (by_ Y p - by_ X p).
Definition ty p := - sin (X p).[2] * (bx Y p - bx X p) + cos (X p).[2] * (by_ Y p - by_ X p).
Lemma se2_pair_form p : pairs raw_se2 X Y p = [cos (X p).[2] * cos (Y p).[2] - - sin (X p).[2] * sin (Y p).[2]; - sin (X p).[2] * cos (Y p).[2] + cos (X p).[2] * sin (Y p).[2]; tx p; ty p].
Proof.
  unfold pairs, tx, ty, bx, by_. cbn [raw_se2 lg_log lg_mul lg_inv lg_exp]. unfold se2_mul, se2_inv, se2_exp. cbn [nth]. lists; ring.
Qed.
Lemma lift_one f g : O 2 (fun p => f p - g p) -> O 1 g -> O 1 f.
Proof. intros H Hg. apply (O_ext u 1 (fun p => (f p - g p) + g p)); [intros; ring|]. apply O_add; auto. apply O_down; auto. Qed.
Lemma t_near : O 2 (fun p => tx p - ((Y p).[0] - (X p).[0])) /\ O 2 (fun p => ty p - ((Y p).[1] - (X p).[1])).
Proof.
  destruct (b_near X HX) as (X0 & X1). destruct (b_near Y HY) as (Y0 & Y1). destruct (trig_near X 2 HX) as (Hc & Hs & _ & _).
  assert (B0 : O 2 (fun p => (bx Y p - bx X p) - ((Y p).[0] - (X p).[0]))).
  { apply (O_ext u 2 (fun p => (bx Y p - (Y p).[0]) - (bx X p - (X p).[0]))); [intros; ring|]. apply O_sub; auto. }
  assert (B1 : O 2 (fun p => (by_ Y p - by_ X p) - ((Y p).[1] - (X p).[1]))).
  { apply (O_ext u 2 (fun p => (by_ Y p - (Y p).[1]) - (by_ X p - (X p).[1]))); [intros; ring|]. apply O_sub; auto. }
  assert (L0 : O 1 (fun p => bx Y p - bx X p)) by (apply (lift_one _ _ B0); apply O_sub; auto).
  assert (L1 : O 1 (fun p => by_ Y p - by_ X p)) by (apply (lift_one _ _ B1); apply O_sub; auto). unfold tx, ty. split.
  - apply (O_ext u 2 (fun p => (cos (X p).[2] - 1) * (bx Y p - bx X p) + sin (X p).[2] * (by_ Y p - by_ X p) + ((bx Y p - bx X p) - ((Y p).[0] - (X p).[0])))); [intros; ring|].
    adds; auto; apply O_mul_1; auto.
  - apply (O_ext u 2 (fun p => - (sin (X p).[2] * (bx Y p - bx X p)) + (cos (X p).[2] - 1) * (by_ Y p - by_ X p) + ((by_ Y p - by_ X p) - ((Y p).[1] - (X p).[1])))); [intros; ring|].
    adds; auto; try apply O_opp; apply O_mul_1; auto.
Qed.
Lemma se2_log_near k : (k < 3)%nat -> O 2 (fun p => (se2_log (pairs raw_se2 X Y p)).[k] - ((Y p).[k] - (X p).[k])).
Proof.
  intros Hk. destruct (atan2_near 2) as (d & Hd & H). destruct t_near as (T0 & T1). set (th := fun p => (Y p).[2] - (X p).[2]). assert (Hth : O 1 th) by (apply O_sub; auto).
  assert (L0 : O 1 tx) by (apply (lift_one _ _ T0); apply O_sub; auto). assert (L1 : O 1 ty) by (apply (lift_one _ _ T1); apply O_sub; auto).
  assert (Ha : O 1 (fun p => v_a (th p) - 1)) by (rewrite <- v_a_0; apply (O_comp u Hu v_a th 0 v_a_lip); auto).
  apply (O_local u 2 (fun p => ([v_a (th p) * tx p + th p / 2 * ty p; - (th p / 2) * tx p + v_a (th p) * ty p; th p] : list R).[k] - ((Y p).[k] - (X p).[k])) _ d); auto.
  - intros p Hp. specialize (H p Hp). f_equal. rewrite se2_pair_form. unfold se2_log. cbn [nth]. rewrite H. reflexivity.
  - destruct k as [|[|[|k]]]; [| | |lia]; cbn [nth].
    + apply (O_ext u 2 (fun p => (v_a (th p) - 1) * tx p + / 2 * (th p * ty p) + (tx p - ((Y p).[0] - (X p).[0])))); [intros; field|]. adds; auto; [apply O_mul_1; auto | apply O_scale, O_mul_1; auto].
    + apply (O_ext u 2 (fun p => (- / 2) * (th p * tx p) + (v_a (th p) - 1) * ty p + (ty p - ((Y p).[1] - (X p).[1])))); [intros; field|]. adds; auto; [apply O_scale, O_mul_1; auto | apply O_mul_1; auto].
    + apply (O_ext u 2 (fun _ => 0)); [intros; unfold th; ring | apply O_zero].
Qed.
End Planar.

(* ---- all four groups ---- *)
Lemma log_pair {P} (u : P -> R) raw X Y k : (forall p, 0 <= u p) -> known raw -> small u X -> small u Y -> (k < lg_dim raw)%nat ->
  O u 2 (fun p => (lg_log raw (pairs raw X Y p)).[k] - ((Y p).[k] - (X p).[k])).
Proof.
  intros Hu [[]|[]] HX HY Hk; cbn [lg_dim raw_so2 raw_se2 raw_so3 raw_se3] in Hk.
  - destruct k; [|lia]. apply so2_log_near; auto.
  - apply se2_log_near; auto.
  - apply so3_log_near; auto.
  - pose proof (se3_log_near u Hu X Y k HX HY) as H. apply Nat.ltb_lt in Hk. rewrite Hk in H. exact H.
Qed.
