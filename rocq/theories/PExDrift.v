(* Bundled statements: on a consistent pose graph the solvers end near where they started, at poses that fit exactly. *)
From Coq Require Import String List Arith Bool Lia Reals Lra ZArith.
From Verif Require Import Num NumR Py Arr MLayout MAssign MNoise MSparse MFactor MGraph MLinear MSolver MLie MPose SpecLayout SpecTree SpecAssign SpecNoise SpecGraph SpecLie SpecPose SpecZero SpecSpatial SpecTwin SpecInv SpecOrder SpecSolver SpecLocal SpecFrame SpecBook SpecNear SpecBasin SpecGauge SpecLoose Ex ExG ExS.
From Verif Require Import PBase PVec PLie PPose PFrame PLin PLinDl PFree PJacZero PTwin2 PZero PSpatial PSpatial2 PSpatial3 PSpatial4 PNear PDeriv PBook PBasin6 PBasin7 PExBook PExInv PExZero PBasin4 PBasin5 PBasin8 PBasin9 PBasin10 PBasin11 PBasin12 PExBasin PGauge PGauge2 PGauge3 PGauge4 PExGauge PLoose PLoose2 PLoose3 PExLoose SpecDrift PDrift2 PDrift3.
Import ListNotations.
Local Open Scope R_scope.
Notation moved := SpecBook.moved.

Lemma drift_solves : forall groups fs z g, fs <> [] -> solved_by groups fs z -> graph_make (pose_env groups) fs = Ok g ->
  exists q C rho, 0 <= q < 1 /\ 0 <= C /\ 0 < rho /\ forall init val e, assigns (pose_env groups) fs init val -> same_layout (as_layout init) (g_layout g) -> apart groups fs z val e -> size fs e <= rho ->
    exists w, alike groups fs z w /\ within fs (C * size fs e) val w /\
    (forall cfg fuel, (iteration_cap (max_iterations cfg) <= fuel)%nat ->
       exists a' k val', gn_solve (pose_env groups) fuel cfg cholmod_solve g init = Some (Ok a') /\ (1 <= k <= iteration_cap (max_iterations cfg))%nat /\
         assigns (pose_env groups) fs a' val' /\ within fs (C * q ^ k * size fs e) val' w) /\
    (forall unroll it fuel, (1 <= it)%Z -> (Z.to_nat it <= fuel)%nat ->
       exists a' val', fixed_solve (pose_env groups) fuel unroll it cholmod_solve g init = Some (Ok a') /\
         assigns (pose_env groups) fs a' val' /\ within fs (C * q ^ Z.to_nat it * size fs e) val' w).
Proof.
  intros groups fs z g Hne SB Eg. destruct (parts_exist groups fs (fun f Hf => proj1 (sb_factors _ _ _ SB f Hf))) as (rt & HP). pose proof (basin_posed groups fs z Hne SB) as WP. destruct (drift_gn groups fs z SB rt HP) as (q & C & rho & Hq & HC & Hrho & HT).
  exists q, C, rho. do 3 (split; [assumption|]). intros init val e Ha Hl Ho Hs. pose proof (proper_apart groups fs z SB val e Ho) as Pv.
  set (vk := fun (k : nat) (v : var) => match k with O => val v | S _ => match fixed_solve (pose_env groups) k false (Z.of_nat k) cholmod_solve g init with Some (Ok a') => match get_value (e_cls (pose_env groups)) a' v with Ok x => x | Err _ => val v end | _ => val v end end).
  destruct (gn_limit groups fs z SB C q e val vk Hq HC Pv) as (w & Aw & Hw).
  - intros j b Hj. apply (HT j val b e I Ho Hs Hj).
  - intros [|k]; [exists val; split; [constructor | auto]|]. destruct (fixed_solves (pose_env groups) fs g WP Eg (S k) false (Z.of_nat (S k)) init val Ha Hl ltac:(lia) ltac:(lia)) as (a' & val' & H1 & H2 & H3). rewrite Nat2Z.id in H2. exists val'. split; [exact H2|].
    intros v Hv. unfold vk. rewrite H1. destruct H3 as (vs & _ & Hin & Hget). rewrite (Hget v) by (apply Hin; auto). reflexivity.
  - exists w. split; [exact Aw|]. split; [|split].
    + eapply within_more; [|apply (Hw 0%nat val); constructor]. cbn [pow]. lra.
    + intros cfg fuel Hc. destruct (gn_solves (pose_env groups) fs g WP Eg cfg fuel init val Ha Hc) as (a' & k & val' & H1 & H2 & H3 & H4). exists a', k, val'. do 3 (split; [assumption|]). apply Hw; auto.
    + intros unroll it fuel Hit Hf. destruct (fixed_solves (pose_env groups) fs g WP Eg fuel unroll it init val Ha Hl Hit Hf) as (a' & val' & H1 & H2 & H3). exists a', val'. do 2 (split; [assumption|]). apply Hw; auto.
Qed.

Lemma drift_ends {A} groups fs z (step : A -> A -> Prop) (val : A -> var -> pytree R) start : drifts groups fs z step val start ->
  exists q C rho, 0 <= q < 1 /\ 0 <= C /\ 0 < rho /\ forall k a b e, start a -> apart groups fs z (val a) e -> size fs e <= rho -> turns step k a b ->
    exists w, alike groups fs z w /\ within fs (C * size fs e) (val a) w /\ within fs (C * q ^ k * size fs e) (val b) w.
Proof.
  intros (q & C & rho & Hq & HC & Hrho & HT). exists q, (2 * C), rho. split; [exact Hq|]. split; [lra|]. split; [exact Hrho|]. intros k a b e Ha Ho Hs Ht. pose proof (size_pos fs e) as Pe.
  destruct (HT 0%nat a a e Ha Ho Hs (turns_0 _ _)) as (W0 & _). specialize (W0 k b Ht). destruct (HT k a b e Ha Ho Hs Ht) as (_ & w & Aw & Ww). exists w. split; [exact Aw|].
  assert (P1 : 0 <= q ^ k) by (apply pow_le; lra). assert (P2 : q ^ k <= 1) by (rewrite <- (pow1 k); apply pow_incr; lra). assert (P3 : 0 <= C * size fs e) by (apply Rmult_le_pos; auto). split.
  - eapply within_more; [|eapply within_then; [exact W0 | exact Ww]]. cbn [pow]. replace (C * q ^ k * size fs e) with (C * size fs e * q ^ k) by ring. assert (C * size fs e * q ^ k <= C * size fs e * 1) by (apply Rmult_le_compat_l; auto). lra.
  - eapply within_more; [|exact Ww]. assert (0 <= C * q ^ k * size fs e) by (apply Rmult_le_pos; auto; apply Rmult_le_pos; auto). lra.
Qed.

Lemma drift_trust : forall groups fs z g, fs <> [] -> solved_by groups fs z -> graph_make (pose_env groups) fs = Ok g ->
  (forall cfg, 0 < lambda_initial cfg -> 1 <= lambda_factor cfg -> 0 < lambda_min cfg -> lm_quality_min cfg < 1 ->
     exists q C rho, 0 <= q < 1 /\ 0 <= C /\ 0 < rho /\ forall init val e fuel, assigns (pose_env groups) fs init val -> apart groups fs z val e -> size fs e <= rho ->
       (iteration_cap (max_iterations (lm_term cfg)) <= fuel)%nat ->
       exists a' k val' w, lm_solve (pose_env groups) fuel cfg cholmod_solve g init = Some (Ok a') /\ (1 <= k <= iteration_cap (max_iterations (lm_term cfg)))%nat /\
         assigns (pose_env groups) fs a' val' /\ alike groups fs z w /\ within fs (C * size fs e) val w /\ within fs (C * q ^ k * size fs e) val' w) /\
  (forall cfg, 0 < radius_initial cfg -> dl_quality_min cfg < 1 ->
     exists q C rho, 0 <= q < 1 /\ 0 <= C /\ 0 < rho /\ forall init val e fuel, assigns (pose_env groups) fs init val -> apart groups fs z val e -> size fs e <= rho ->
       (iteration_cap (max_iterations (dl_term cfg)) <= fuel)%nat ->
       exists a' k val' w, dl_solve (pose_env groups) fuel cfg cholmod_solve g init = Some (Ok a') /\ (1 <= k <= iteration_cap (max_iterations (dl_term cfg)))%nat /\
         assigns (pose_env groups) fs a' val' /\ alike groups fs z w /\ within fs (C * size fs e) val w /\ within fs (C * q ^ k * size fs e) val' w).
Proof.
  intros groups fs z g Hne SB Eg. destruct (parts_exist groups fs (fun f Hf => proj1 (sb_factors _ _ _ SB f Hf))) as (rt & HP). pose proof (basin_posed groups fs z Hne SB) as WP. split.
  - intros cfg H1 H2 H3 H4. destruct (drift_ends groups fs z _ _ _ (drift_lm groups fs z SB rt HP cfg H1 H2 H3 H4)) as (q & C & rho & Hq & HC & Hrho & HT). exists q, C, rho. do 3 (split; [assumption|]). intros init val e fuel Ha Ho Hs Hf.
    destruct (lm_solves (pose_env groups) fs g WP Eg cfg fuel init val Ha Hf H1 ltac:(lra) H3) as (a' & k & b' & G1 & G2 & G3 & G4). destruct (HT k (mkBook val val (lambda_initial cfg)) b' e Logic.eq_refl Ho Hs G3) as (w & W1 & W2 & W3). exists a', k, (b_val b'), w. do 5 (split; [assumption|]). exact W3.
  - intros cfg H1 H2. destruct (drift_ends groups fs z _ _ _ (drift_dl groups fs z SB rt HP cfg H1 H2)) as (q & C & rho & Hq & HC & Hrho & HT). exists q, C, rho. do 3 (split; [assumption|]). intros init val e fuel Ha Ho Hs Hf.
    destruct (dl_solves (pose_env groups) fs g WP Eg cfg fuel init val Ha Hf H1) as (a' & k & b' & G1 & G2 & G3 & G4). destruct (HT k (mkBook val val (radius_initial cfg)) b' e Logic.eq_refl Ho Hs G3) as (w & W1 & W2 & W3). exists a', k, (b_val b'), w. do 5 (split; [assumption|]). exact W3.
Qed.

Lemma zero_self k : vdot (vzero k) (vzero k) = 0.
Proof. induction k as [|k IH]; [reflexivity|]. change (0 * 0 + vdot (vzero k) (vzero k) = 0). rewrite IH. ring. Qed.
Lemma zeros_sum {X} (f : X -> R) l : (forall x, f x = 0) -> vsum (map f l) = 0.
Proof. intros H. induction l as [|x l IH]; [reflexivity|]. change (f x + vsum (map f l) = 0). rewrite H, IH. ring. Qed.
(* poses reached from an exact fit by an unseen motion are unit poses and fit exactly *)
Lemma drift_fits : forall groups fs z w, solved_by groups fs z -> alike groups fs z w ->
  cost_at (pose_env groups) fs w = 0 /\ forall v, In v (mentioned fs) -> pose_value groups (v_ty v) (w v) /\ unit_pose (groups (v_ty v)) (params (w v)).
Proof.
  intros groups fs z w SB (fr & Hu & Hf). pose proof (proper_z groups fs z SB) as Pz. pose proof (proper_carried groups fs z SB fr z w Hu Pz Hf) as Pw.
  assert (Lz : forall v, In v (mentioned fs) -> value_ok (e_cls (pose_env groups) (v_ty v)) (z v)) by (apply (legal_z groups fs z SB)). split.
  - rewrite (carried_cost groups fs z SB fr Hu z w Lz Hf). destruct (parts_exist groups fs (fun f Hf => proj1 (sb_factors _ _ _ SB f Hf))) as (rt & HP).
    destruct (loose_near groups fs z SB rt HP) as (m & M & d & Cs & ds & Hm & HM & Hd & HCs & Hds & HB & HR & _). set (e0 := fun v : var => vzero (lg_dim (groups (v_ty v)))).
    assert (S0 : size fs e0 = 0). { unfold size. replace (inner fs e0 e0) with 0; [apply sqrt_0|]. symmetry. unfold inner. apply zeros_sum. intros v. apply zero_self. }
    assert (T0 : tangent (pose_env groups) fs e0) by (intros v Hv; apply vzero_length).
    set (p := fun v => group_value (v_ty v) (lie_retract (groups (v_ty v)) (params (z v)) (e0 v))). assert (Hp : moved (pose_env groups) fs z e0 p) by (intros v Hv; reflexivity).
    assert (Ez : forall v, In v (mentioned fs) -> p v = z v).
    { intros v Hv. unfold p, e0, lie_retract, rplus. rewrite exp_zero_one by (apply (kn groups fs z SB); auto). destruct (Pz v Hv) as (x & Ex & Lx & _). rewrite Ex, params_value, mul_one; auto. apply (kn groups fs z SB); auto. }
    assert (A0 : apart groups fs z z e0). { split; auto. exists p. split; auto. destruct (carried_still groups fs z SB z Lz) as (f1 & U1 & C1). exists f1. split; auto. intros v Hv. rewrite (Ez v Hv). apply C1; auto. }
    destruct (HR z e0 A0 ltac:(lra)) as (e1 & A1 & F1 & L1). rewrite S0, Rmult_0_r in L1. pose proof (size_pos fs e1) as P1. destruct (HB z e1 A1 F1 ltac:(lra)) as (X1 & X2). replace (size fs e1) with 0 in X1, X2 by lra. rewrite !Rmult_0_r in X1, X2. lra.
  - intros v Hv. destruct (Pw v Hv) as (x & Ex & Lx & Ux). rewrite Ex, params_value. split; auto. exists x. auto.
Qed.
