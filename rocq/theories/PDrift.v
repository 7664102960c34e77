(* Proofs: a small step changes the stored parameters of a pose by little, wherever the pose is. *)
From Coq Require Import List Arith Bool Lia Reals Lra Psatz.
From Verif Require Import Num NumR Py Arr MLayout MAssign MNoise MSparse MFactor MGraph MLinear MSolver MLie MPose SpecLayout SpecTree SpecAssign SpecNoise SpecGraph SpecLie SpecPose SpecZero SpecSpatial SpecTwin SpecInv SpecOrder SpecSolver SpecSym SpecFrame SpecBook SpecNear SpecBasin SpecGauge PGraph PVec PLie PPose PFrame PExSym PSolverR PNoise PDescent PLocal PLin PLinDl POrder PDeriv PTwin2 PFree PZero PJacZero PNear PSpatial PSpatial2 PSpatial3 PSpatial4 PBook PBasin4 PBasin5 PBasin6 PBasin7 PBasin8 PBasin9 PBasin10 PBasin11 PBasin12 PGauge PGauge2 PGauge3 SpecLoose PGauge4 PLoose PLoose2 PBasin PBasin2 PBasin3 PPoseStop PLoose3.
Import ListNotations.
Local Open Scope R_scope.
Notation moved := SpecBook.moved.

Section Families.
Context {P : Type}.
Variable u : P -> R.
Hypothesis Hu : forall p, 0 <= u p.

Lemma O_less0 (f : P -> R) : O u 1 f -> O u 1 (fun p => f p - 0). Proof. apply O_ext. intros. ring. Qed.
Lemma exp_near_one raw X : PZero.known raw -> small u X -> forall k, O u 1 (fun p => (lg_exp raw (X p)).[k] - (lg_one raw).[k]).
Proof.
  intros [[]|[]] HX k; cbn [raw_so2 raw_se2 raw_so3 raw_se3 lg_exp lg_one].
  - destruct (trig_near u Hu X 0 HX) as (Hc & Hs & _). destruct k as [|[|k]]; cbn; [apply Hc | apply O_less0; auto | destruct k; apply (O_ext u 1 (fun _ => 0)); try apply O_zero; intros; ring].
  - destruct (trig_near u Hu X 2 HX) as (Hc & Hs & _). destruct (b_near u Hu X HX) as (B0 & B1). pose proof (lift_one u Hu _ _ B0 (HX _)) as L0. pose proof (lift_one u Hu _ _ B1 (HX _)) as L1.
    destruct k as [|[|[|[|k]]]]; cbn; [apply Hc | apply O_less0; auto | apply O_less0; exact L0 | apply O_less0; exact L1 | destruct k; apply (O_ext u 1 (fun _ => 0)); try apply O_zero; intros; ring].
  - destruct (ec_near u Hu X HX) as (Hc & _). destruct k as [|[|[|[|k]]]]; cbn; [apply O_down; auto | apply O_less0, (exp_small u Hu X 0 HX) | apply O_less0, (exp_small u Hu X 1 HX) | apply O_less0, (exp_small u Hu X 2 HX) | destruct k; apply (O_ext u 1 (fun _ => 0)); try apply O_zero; intros; ring].
  - pose proof (small_rot u X HX) as RX. pose proof (small_tra u X HX) as TX. destruct (ec_near u Hu _ RX) as (Hc & _).
    assert (Hv : small u (fun p => vee (rotv (X p)) (trav (X p)))).
    { apply (lift u Hu _ (fun p => trav (X p))); [intros j Hj; apply vee_near; auto | intros; apply vee3'; reflexivity | auto]. }
    assert (Hf : forall p, se3_exp (X p) = quat_exp (rotv (X p)) ++ vee (rotv (X p)) (trav (X p))).
    { intros p. apply se3_exp_form. }
    apply (O_ext u 1 (fun p => (quat_exp (rotv (X p)) ++ vee (rotv (X p)) (trav (X p))).[k] - [1; 0; 0; 0; 0; 0; 0].[k])); [intros p; rewrite Hf; auto|].
    destruct k as [|[|[|[|k]]]]; [apply (O_down u Hu); exact Hc | apply O_less0, (exp_small u Hu _ 0 RX) | apply O_less0, (exp_small u Hu _ 1 RX) | apply O_less0, (exp_small u Hu _ 2 RX) |].
    apply (O_ext u 1 (fun p => (vee (rotv (X p)) (trav (X p))).[k])); [|apply Hv]. intros p. change ((vee (rotv (X p)) (trav (X p))).[k] = (vee (rotv (X p)) (trav (X p))).[k] - [0; 0; 0].[k]). destruct k as [|[|[|[|k]]]]; cbn [nth]; ring.
Qed.

Ltac near1 := repeat first [assumption | apply O_add; [assumption| |] | apply O_sub; [assumption| |]].
Ltac nb := repeat first [assumption | apply O_const | apply O_add | apply O_sub | apply O_opp | apply (O_mul_0 u 0)].
Ltac n1 := first [assumption | apply O_add; n1 | apply O_sub; n1 | apply O_opp; n1 | apply (O_mul_0 u 1); [solve [nb] | n1] | apply O_10; [n1 | solve [nb]]].
Lemma mul_near raw (A V : P -> list R) : PZero.known raw -> (forall p, sized_pose raw (A p) /\ unit_pose raw (A p)) -> (forall k, O u 1 (fun p => (V p).[k] - (lg_one raw).[k])) ->
  forall k, O u 1 (fun p => (lg_mul raw (A p) (V p)).[k] - (A p).[k]).
Proof.
  assert (UB : forall (a b c d : P -> R), (forall p, a p * a p + b p * b p + c p * c p + d p * d p = 1) -> O u 0 a).
  { intros a b c d H. exists 1, 1. split; [lra|]. split; [lra|]. intros p _. cbn [pow]. specialize (H p). rewrite Rmult_1_r. apply Rsqr_incr_0_var; [|lra]. rewrite <- Rsqr_abs. unfold Rsqr. nra. }
  intros [Hp|Hs] HA HV k.
  - assert (H2 : forall p, norm2 (A p) = 1) by (intros p; apply (proj2 (HA p)); auto).
    assert (B0 : O u 0 (fun p => (A p).[0])) by (apply (UB _ (fun p => (A p).[1]) (fun _ => 0) (fun _ => 0)); intros p; specialize (H2 p); unfold norm2 in H2; lra).
    assert (B1 : O u 0 (fun p => (A p).[1])) by (apply (UB _ (fun p => (A p).[0]) (fun _ => 0) (fun _ => 0)); intros p; specialize (H2 p); unfold norm2 in H2; lra).
    destruct Hp; cbn [raw_so2 raw_se2 lg_one lg_mul] in HV |- *; pose proof (HV 0%nat) as V0; pose proof (HV 1%nat) as V1; cbn [nth] in V0, V1.
    + destruct k as [|[|k]].
      * apply (O_ext u 1 (fun p => (A p).[0] * ((V p).[0] - 1) - (A p).[1] * ((V p).[1] - 0))); [intros p; cbn; ring | n1].
      * apply (O_ext u 1 (fun p => (A p).[0] * ((V p).[1] - 0) + (A p).[1] * ((V p).[0] - 1))); [intros p; cbn; ring | n1].
      * apply (O_ext u 1 (fun _ => 0)); [|apply O_zero]. intros p. destruct (HA p) as (L & _). unfold sized_pose in L. cbn in L. rewrite (nth_overflow (A p)) by lia. cbn. destruct k; ring.
    + pose proof (HV 2%nat) as V2; pose proof (HV 3%nat) as V3; cbn [nth] in V2, V3. destruct k as [|[|[|[|k]]]].
      * apply (O_ext u 1 (fun p => (A p).[0] * ((V p).[0] - 1) - (A p).[1] * ((V p).[1] - 0))); [intros p; cbn; ring | n1].
      * apply (O_ext u 1 (fun p => (A p).[0] * ((V p).[1] - 0) + (A p).[1] * ((V p).[0] - 1))); [intros p; cbn; ring | n1].
      * apply (O_ext u 1 (fun p => (A p).[0] * ((V p).[2] - 0) - (A p).[1] * ((V p).[3] - 0))); [intros p; cbn; ring | n1].
      * apply (O_ext u 1 (fun p => (A p).[1] * ((V p).[2] - 0) + (A p).[0] * ((V p).[3] - 0))); [intros p; cbn; ring | n1].
      * apply (O_ext u 1 (fun _ => 0)); [|apply O_zero]. intros p. destruct (HA p) as (L & _). unfold sized_pose in L. cbn in L. rewrite (nth_overflow (A p)) by lia. cbn. destruct k; ring.
  - assert (H4 : forall p, norm4 (A p) = 1) by (intros p; apply (proj2 (HA p)); auto).
    assert (B0 : O u 0 (fun p => (A p).[0])) by (apply (UB _ (fun p => (A p).[1]) (fun p => (A p).[2]) (fun p => (A p).[3])); intros p; specialize (H4 p); unfold norm4 in H4; lra).
    assert (B1 : O u 0 (fun p => (A p).[1])) by (apply (UB _ (fun p => (A p).[0]) (fun p => (A p).[2]) (fun p => (A p).[3])); intros p; specialize (H4 p); unfold norm4 in H4; lra).
    assert (B2 : O u 0 (fun p => (A p).[2])) by (apply (UB _ (fun p => (A p).[0]) (fun p => (A p).[1]) (fun p => (A p).[3])); intros p; specialize (H4 p); unfold norm4 in H4; lra).
    assert (B3 : O u 0 (fun p => (A p).[3])) by (apply (UB _ (fun p => (A p).[0]) (fun p => (A p).[1]) (fun p => (A p).[2])); intros p; specialize (H4 p); unfold norm4 in H4; lra).
    assert (Hq : forall W : P -> list R, O u 1 (fun p => (W p).[0] - 1) -> O u 1 (fun p => (W p).[1] - 0) -> O u 1 (fun p => (W p).[2] - 0) -> O u 1 (fun p => (W p).[3] - 0) -> forall i, (i < 4)%nat -> O u 1 (fun p => (quat_mul (A p) (W p)).[i] - (A p).[i])).
    { intros W W0 W1 W2 W3 i Hi. destruct i as [|[|[|[|i]]]]; [| | | |lia].
      - apply (O_ext u 1 (fun p => (A p).[0] * ((W p).[0] - 1) - (A p).[1] * ((W p).[1] - 0) - (A p).[2] * ((W p).[2] - 0) - (A p).[3] * ((W p).[3] - 0))); [intros p; cbn; ring | n1].
      - apply (O_ext u 1 (fun p => (A p).[0] * ((W p).[1] - 0) + (A p).[1] * ((W p).[0] - 1) + (A p).[2] * ((W p).[3] - 0) - (A p).[3] * ((W p).[2] - 0))); [intros p; cbn; ring | n1].
      - apply (O_ext u 1 (fun p => (A p).[0] * ((W p).[2] - 0) - (A p).[1] * ((W p).[3] - 0) + (A p).[2] * ((W p).[0] - 1) + (A p).[3] * ((W p).[1] - 0))); [intros p; cbn; ring | n1].
      - apply (O_ext u 1 (fun p => (A p).[0] * ((W p).[3] - 0) + (A p).[1] * ((W p).[2] - 0) - (A p).[2] * ((W p).[1] - 0) + (A p).[3] * ((W p).[0] - 1))); [intros p; cbn; ring | n1]. }
    destruct Hs; cbn [raw_so3 raw_se3 lg_one lg_mul] in HV |- *; pose proof (HV 0%nat) as V0; pose proof (HV 1%nat) as V1; pose proof (HV 2%nat) as V2; pose proof (HV 3%nat) as V3; cbn [nth] in V0, V1, V2, V3.
    + destruct (lt_dec k 4) as [Hk|Hk]; [apply (Hq V); auto|]. apply (O_ext u 1 (fun _ => 0)); [|apply O_zero]. intros p. destruct (HA p) as (L & _). unfold sized_pose in L. cbn in L. rewrite (nth_overflow (A p)) by lia. do 4 (destruct k as [|k]; [lia|]). cbn. destruct k; ring.
    + pose proof (HV 4%nat) as V4; pose proof (HV 5%nat) as V5; pose proof (HV 6%nat) as V6; cbn [nth] in V4, V5, V6.
      assert (Hf : forall p, se3_mul (A p) (V p) = quat_mul (rot_part (A p)) (rot_part (V p)) ++ vadd (rotate (rot_part (A p)) (tra_part (V p))) (tra_part (A p))) by (intros p; unfold se3_mul; rewrite apply_rotate; auto).
      eapply O_ext; [intros p; rewrite Hf; reflexivity|].
      assert (W4 : O u 1 (fun p => (V p).[4])) by (eapply O_ext; [|exact V4]; intros; cbn; ring). assert (W5 : O u 1 (fun p => (V p).[5])) by (eapply O_ext; [|exact V5]; intros; cbn; ring). assert (W6 : O u 1 (fun p => (V p).[6])) by (eapply O_ext; [|exact V6]; intros; cbn; ring).
      destruct k as [|[|[|[|[|[|[|k]]]]]]].
      * eapply O_ext; [|apply (Hq V) with (i := 0%nat); auto]. intros p. cbn. ring.
      * eapply O_ext; [|apply (Hq V) with (i := 1%nat); auto]. intros p. cbn. ring.
      * eapply O_ext; [|apply (Hq V) with (i := 2%nat); auto]. intros p. cbn. ring.
      * eapply O_ext; [|apply (Hq V) with (i := 3%nat); auto]. intros p. cbn. ring.
      * apply (O_ext u 1 (fun p => (rotate (rot_part (A p)) (tra_part (V p))).[0])); [intros p; cbn; ring|]. cbn. n1.
      * apply (O_ext u 1 (fun p => (rotate (rot_part (A p)) (tra_part (V p))).[1])); [intros p; cbn; ring|]. cbn. n1.
      * apply (O_ext u 1 (fun p => (rotate (rot_part (A p)) (tra_part (V p))).[2])); [intros p; cbn; ring|]. cbn. n1.
      * apply (O_ext u 1 (fun _ => 0)); [|apply O_zero]. intros p. destruct (HA p) as (L & _). unfold sized_pose in L. cbn in L. rewrite (nth_overflow (A p)) by lia. cbn. destruct k; ring.
Qed.
End Families.

Lemma pose_step raw : PZero.known raw -> exists K d, 0 <= K /\ 0 < d /\ forall x e, sized_pose raw x -> unit_pose raw x -> vnorm e <= d -> forall k, (k < length (lg_one raw))%nat ->
  Rabs ((lie_retract raw x e).[k] - x.[k]) <= K * vnorm e.
Proof.
  intros Hk. set (Q := {xe : list R * list R | sized_pose raw (fst xe) /\ unit_pose raw (fst xe)}). set (u := fun q : Q => vnorm (snd (proj1_sig q))). assert (Hu : forall q, 0 <= u q) by (intros; apply norm_pos).
  assert (Hs : small u (fun q => snd (proj1_sig q))) by (intros k; exists 1, 1; split; [lra|]; split; [lra|]; intros q _; rewrite pow_1, Rmult_1_l; apply comp_le_norm).
  pose proof (mul_near u raw (fun q => fst (proj1_sig q)) (fun q => lg_exp raw (snd (proj1_sig q))) Hk (fun q => proj2_sig q) (exp_near_one u Hu raw _ Hk Hs)) as HN.
  destruct (all_below u 1 (length (lg_one raw)) (fun k q => (lg_mul raw (fst (proj1_sig q)) (lg_exp raw (snd (proj1_sig q)))).[k] - (fst (proj1_sig q)).[k]) Hu) as (C & d & HC & Hd & H); [intros k _; apply HN|].
  exists C, d. split; auto. split; auto. intros x e Lx Ux He k Hlt. pose (q := exist _ (x, e) (conj Lx Ux) : Q). specialize (H q He k Hlt). cbn in H. rewrite Rmult_1_r in H. exact H.
Qed.
Lemma poses_step groups l : (forall v, In v l -> PZero.known (groups (v_ty v))) -> exists K d, 0 <= K /\ 0 < d /\ forall v x e, In v l -> sized_pose (groups (v_ty v)) x -> unit_pose (groups (v_ty v)) x -> vnorm e <= d ->
  forall k, (k < length (lg_one (groups (v_ty v))))%nat -> Rabs ((lie_retract (groups (v_ty v)) x e).[k] - x.[k]) <= K * vnorm e.
Proof.
  induction l as [|v l IH]; intros Hk; [exists 0, 1; split; [lra|]; split; [lra|]; intros v x e []|].
  destruct IH as (K & d & HK & Hd & H); [intros; apply Hk; right; auto|]. destruct (pose_step (groups (v_ty v)) (Hk v (or_introl Logic.eq_refl))) as (K' & d' & HK' & Hd' & H').
  exists (K + K'), (Rmin d d'). split; [lra|]. split; [apply Rmin_pos; auto|]. intros w x e [<-|Hw] Lx Ux He k Hlt; pose proof (norm_pos e) as Pe.
  - eapply Rle_trans; [apply H'; auto; eapply Rle_trans; [exact He | apply Rmin_r]|]. apply Rmult_le_compat_r; auto. lra.
  - eapply Rle_trans; [apply H; auto; eapply Rle_trans; [exact He | apply Rmin_l]|]. apply Rmult_le_compat_r; auto. lra.
Qed.
