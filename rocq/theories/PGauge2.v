(* Proofs: splitting a common motion off a displacement. *)
From Coq Require Import List Arith Bool Lia Reals Lra Psatz.
From Verif Require Import Num NumR Py Arr MLayout MAssign MNoise MSparse MFactor MGraph MLie MPose SpecLayout SpecTree SpecAssign SpecNoise SpecGraph SpecLie SpecPose SpecZero SpecSpatial SpecTwin SpecInv SpecOrder SpecSym SpecFrame SpecBook SpecNear SpecBasin SpecGauge PGraph PVec PLie PPose PFrame PExSym PSolverR PNoise PDescent PLocal PLin PLinDl POrder PDeriv PTwin2 PFree PZero PJacZero PNear PSpatial PSpatial2 PSpatial3 PSpatial4 PBook PBasin4 PBasin5 PBasin6 PBasin7 PBasin8 PBasin9 PBasin10 PBasin11 PBasin12 PGauge.
Import ListNotations.
Local Open Scope R_scope.

Section Group.
Variable raw : lie_ops R (list R).
Hypothesis Hk : known raw.
Notation "a ** b" := (lg_mul raw a b) (at level 40, left associativity).
Notation "a ^-" := (lg_inv raw a) (at level 2, format "a ^-").
Notation n := (lg_dim raw).
Notation good p := (sized_pose raw p /\ unit_pose raw p).

(* the motion that brings z0 to z0 exp(e0), applied to x exp(Ad(x^- z0) (- e0)) exp(d), is x exp(d) *)
Lemma motion_split z0 x e0 d : good z0 -> good x -> length e0 = n ->
  z0 ** lg_exp raw e0 ** z0^- ** (x ** lg_exp raw (mvec (lg_adj raw (x^- ** z0)) (vneg e0)) ** lg_exp raw d) = x ** lg_exp raw d.
Proof.
  intros (Lz & Uz) (Lx & Ux) Le. pose proof (good_exp raw Hk e0) as (Lg & Ug). pose proof (good_exp raw Hk d) as (Ld & Ud).
  assert (Uxi : unit_pose raw (x^-)) by (apply unit_inv; auto).
  rewrite k_exp_adj by first [exact Hk | apply sized_mul; auto | apply unit_mul; auto | rewrite vneg_length; auto]. rewrite k_exp_neg by auto.
  rewrite inv_of_mul by auto. rewrite inv_of_inv by auto. set (g := lg_exp raw e0) in *. set (h := lg_exp raw d) in *.
  rewrite !raw_assoc by auto. rewrite (cancel_right raw x) by (auto; apply sized_mul; auto). rewrite (cancel_left raw z0) by (auto; apply sized_mul; auto). rewrite (cancel_right raw g) by (auto; apply sized_mul; auto).
  apply cancel_right; auto. apply sized_mul; auto.
Qed.
Lemma motion_root z0 e0 : good z0 -> z0 ** lg_exp raw e0 ** z0^- ** (z0 ** lg_exp raw (vzero n)) = z0 ** lg_exp raw e0.
Proof.
  intros (Lz & Uz). rewrite exp_zero_one by auto. rewrite (mul_one raw z0) by auto. rewrite !raw_assoc by auto. rewrite inv_l by auto. f_equal. apply mul_one; auto. apply good_exp; auto.
Qed.
End Group.

Section Graph.
Variable groups : vty -> lie_ops R (list R).
Variable fs : list (factor R).
Variable z : var -> pytree R.
Hypothesis SB : solved_by groups fs z.
Variable v0 : var.
Hypothesis Hv0 : In v0 (mentioned fs).
Hypothesis Hj : forall v, In v (mentioned fs) -> joined fs v0 v.
Let E := pose_env groups.
Notation field := (var -> list R).
Notation flatv := (flatv fs).
Let raw := groups (v_ty v0).
Notation x0 := (params (z v0)).

Lemma adj_uniform l : incl l (mentioned fs) -> exists c, 0 <= c /\ forall v, In v l -> forall d, length d = lg_dim raw ->
  vnorm (mvec (lg_adj raw (lg_mul raw (lg_inv raw (params (z v))) x0)) d) <= c * vnorm d.
Proof.
  assert (Hk : known raw) by (apply (kn groups fs z SB); auto). induction l as [|v l IH]; intros Hl; [exists 0; split; [lra|]; intros v []|].
  destruct IH as (c1 & Hc1 & H1); [intros u Hu; apply Hl; right; auto|]. destruct (mvec_bound (lg_dim raw) _ (proj2 (k_adj_shape raw Hk (lg_mul raw (lg_inv raw (params (z v))) x0)))) as (c2 & Hc2 & H2).
  pose proof (Rmax_l c1 c2) as M1. pose proof (Rmax_r c1 c2) as M2. exists (Rmax c1 c2). split; [lra|]. intros u [<-|Hu] d Ld; (eapply Rle_trans; [first [apply H2; assumption | apply H1; assumption]|]; apply Rmult_le_compat_r; auto; apply norm_pos).
Qed.

Lemma reslice : exists C d, 0 <= C /\ 0 < d /\ forall e w, tangent E fs e -> size fs e <= d -> SpecBook.moved E fs z e w ->
  exists frame e' w', unit_frame groups frame /\ tangent E fs e' /\ e' v0 = vzero (lg_dim (groups (v_ty v0))) /\ size fs e' <= C * size fs e /\ SpecBook.moved E fs z e' w' /\ framed groups fs frame w' w.
Proof.
  assert (Hk : known raw) by (apply (kn groups fs z SB); auto). destruct (adj_uniform (mentioned fs) (incl_refl _)) as (c & Hc & HA).
  destruct (compose_uniform groups (mentioned fs) (kn groups fs z SB)) as (K & dc & HK & Hdc & HC). set (N := INR (length (mentioned fs))). assert (HN0 : 0 <= N) by apply pos_INR.
  set (c1 := c + 1). set (B := c + 1 + K * (c1 * c1)). assert (Hc1 : 1 <= c1) by (unfold c1; lra). assert (HB : 0 <= B) by (unfold B; assert (0 <= K * (c1 * c1)) by (apply Rmult_le_pos; nra); lra).
  exists (N * B), (Rmin 1 (dc / c1)). split; [apply Rmult_le_pos; auto|]. split; [apply Rmin_pos; [lra | apply Rdiv_lt_0_compat; lra]|].
  intros e w Te Hs Hm. set (r := size fs e) in *. pose proof (size_pos fs e) as Pr. fold r in Pr. assert (R1 : r <= 1) by (eapply Rle_trans; [exact Hs | apply Rmin_l]).
  assert (R2 : c1 * r <= dc). { assert (r <= dc / c1) by (eapply Rle_trans; [exact Hs | apply Rmin_r]). apply (Rmult_le_compat_l c1) in H; [|lra]. replace (c1 * (dc / c1)) with dc in H by (field; lra). auto. }
  assert (Hcr : 0 <= c * r) by (apply Rmult_le_pos; auto).
  pose proof (sb_values _ _ _ SB v0 Hv0) as (V0 & U0). assert (G0 : sized_pose raw x0) by (destruct V0 as (p0 & Ep & Lp); unfold sized_pose; rewrite Ep, params_value; exact Lp).
  assert (L0 : length (e v0) = lg_dim raw) by (apply (Te v0 Hv0)). assert (Sz : vnorm (e v0) <= r) by (apply (size_part fs e v0 Hv0)).
  set (a := fun v => mvec (lg_adj raw (lg_mul raw (lg_inv raw (params (z v))) x0)) (vneg (e v0))).
  set (frame := fun t : vty => if Nat.eqb t (v_ty v0) then lg_mul raw (lg_mul raw x0 (lg_exp raw (e v0))) (lg_inv raw x0) else lg_one (groups t)).
  set (e' := fun v => if eqb v v0 then vzero (lg_dim raw) else lg_log raw (lg_mul raw (lg_exp raw (a v)) (lg_exp raw (e v)))).
  assert (Ty : forall v, In v (mentioned fs) -> v_ty v = v_ty v0) by (intros v Hv; apply (one_type fs v0); auto).
  assert (HE : forall v, In v (mentioned fs) -> length (e' v) = lg_dim raw /\ vnorm (e' v) <= B * r /\
    lg_mul raw (lg_mul raw (lg_mul raw x0 (lg_exp raw (e v0))) (lg_inv raw x0)) (lg_mul raw (params (z v)) (lg_exp raw (e' v))) = lg_mul raw (params (z v)) (lg_exp raw (e v))).
  { intros v Hv. pose proof (Ty v Hv) as Tv. pose proof (sb_values _ _ _ SB v Hv) as (Vv & Uv). assert (Gv : sized_pose raw (params (z v))) by (destruct Vv as (p0 & Ep & Lp); unfold sized_pose; rewrite Ep, params_value; unfold raw; rewrite <- Tv; exact Lp).
    rewrite Tv in Uv. unfold e'. destruct (eqb v v0) eqn:Ev.
    - apply eqb_ok in Ev. subst v. split; [apply vzero_length|]. split; [rewrite zero_norm; apply Rmult_le_pos; auto|]. apply motion_root; auto.
    - destruct (HC v Hv (params (z v)) (a v) (e v) (c1 * r)) as (G1 & G2 & G3); rewrite ?Tv; fold raw; auto.
      + apply k_adj_length; auto.
      + pose proof (Te v Hv) as L. change (length (e v) = lg_dim (groups (v_ty v))) in L. rewrite Tv in L. exact L.
      + eapply Rle_trans; [apply HA; auto; rewrite vneg_length; auto|]. rewrite norm_neg. assert (c * vnorm (e v0) <= c * r) by (apply Rmult_le_compat_l; auto). unfold c1. lra.
      + eapply Rle_trans; [apply (size_part fs e v Hv)|]. fold r. unfold c1. lra.
      + rewrite Tv in G1, G2, G3. fold raw in G1, G2, G3. split; auto. split.
        * assert (La : length (a v) = lg_dim raw) by (apply k_adj_length; auto). assert (Le : length (e v) = lg_dim raw) by (pose proof (Te v Hv) as L; change (length (e v) = lg_dim (groups (v_ty v))) in L; rewrite Tv in L; exact L).
          eapply Rle_trans; [apply (norm_split _ (vadd (a v) (e v))); rewrite vadd_length; congruence|]. pose proof (norm_add (a v) (e v) ltac:(congruence)) as Q1.
          assert (Q2 : vnorm (a v) <= c * r). { eapply Rle_trans; [apply HA; auto; rewrite vneg_length; auto|]. rewrite norm_neg. apply Rmult_le_compat_l; auto. }
          pose proof (size_part fs e v Hv) as Q3. fold r in Q3. assert (Q4 : K * (c1 * r * (c1 * r)) <= K * (c1 * c1) * r). { replace (K * (c1 * r * (c1 * r))) with (K * (c1 * c1) * (r * r)) by ring. apply Rmult_le_compat_l; [apply Rmult_le_pos; nra|nra]. }
          unfold B. lra.
        * unfold lie_retract, rplus in G2. rewrite <- G2. apply motion_split; auto. }
  exists frame, e', (fun v => group_value (v_ty v) (lie_retract (groups (v_ty v)) (params (z v)) (e' v))). split; [|split; [|split; [|split; [|split]]]].
  - intros t. change (unit_pose (groups t) (frame t)). unfold frame. destruct (Nat.eqb t (v_ty v0)) eqn:Et.
    + apply Nat.eqb_eq in Et. subst t. fold raw. apply unit_mul; auto; [apply unit_mul; auto; apply good_exp; auto | apply unit_inv; auto].
    + split; intros []; unfold norm2, norm4; cbn; ring.
  - intros v Hv. change (length (e' v) = lg_dim (groups (v_ty v))). rewrite (Ty v Hv). apply HE; auto.
  - unfold e'. rewrite (proj2 (eqb_ok v0 v0)) by auto. reflexivity.
  - rewrite (size_flat fs). unfold PBasin8.flatv. rewrite Rmult_assoc. apply flat_norm. intros v Hv. apply HE; auto.
  - intros v Hv. reflexivity.
  - intros v Hv. specialize (Hm v Hv). cbn in Hm. injection Hm as Hm. rewrite <- Hm. unfold SpecFrame.move. rewrite params_value. f_equal. destruct (HE v Hv) as (_ & _ & G). unfold frame, lie_retract, rplus. rewrite (Ty v Hv), Nat.eqb_refl. symmetry. exact G.
Qed.
End Graph.
