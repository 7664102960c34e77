(* Bundled statements and a concrete instance: what the stopping tests guarantee on pose graphs. *)
From Coq Require Import String List Arith Bool ZArith Lia Reals Lra Psatz.
From Verif Require Import Num NumR Py Arr MLayout MAssign MNoise MSparse MFactor MGraph MLinear MSolver MLie MPose SpecLayout SpecTree SpecAssign SpecNoise SpecGraph SpecLie SpecPose SpecZero SpecTwin SpecInv SpecOrder SpecSolver SpecBook SpecNear SpecBasin SpecPoseStop Ex ExG ExS.
From Verif Require Import PBase PVec PBook PExBook PExInv PExZero PBasin8 PBasin10 PBasin11 PBasin12 PExBasin PPoseStop PPoseStop2.
Import ListNotations.
Local Open Scope R_scope.

Lemma pose_stop_solves : forall groups fs z g, fs <> [] -> solved_by groups fs z -> rigid groups fs z -> graph_make (pose_env groups) fs = Ok g ->
  (exists q rho D delta, 0 <= q < 1 /\ 0 < rho /\ 0 <= D /\ 0 < delta /\
     forall cfg, pose_stops (pose_env groups) fs z rho q D delta cfg (fun fuel => gn_solve (pose_env groups) fuel cfg cholmod_solve g)) /\
  (forall qmin lambda, qmin < 1 -> 0 < lambda -> exists q rho D delta, 0 <= q < 1 /\ 0 < rho /\ 0 <= D /\ 0 < delta /\
     forall cfg, lm_quality_min cfg <= qmin -> 1 <= lambda_factor cfg -> 0 < lambda_min cfg -> 0 < lambda_initial cfg <= lambda ->
       pose_stops (pose_env groups) fs z rho q D delta (lm_term cfg) (fun fuel => lm_solve (pose_env groups) fuel cfg cholmod_solve g)) /\
  (forall qmin radius, qmin < 1 -> 0 < radius -> exists q rho D delta, 0 <= q < 1 /\ 0 < rho /\ 0 <= D /\ 0 < delta /\
     forall cfg, dl_quality_min cfg <= qmin -> radius <= radius_initial cfg ->
       pose_stops (pose_env groups) fs z rho q D delta (dl_term cfg) (fun fuel => dl_solve (pose_env groups) fuel cfg cholmod_solve g)).
Proof.
  intros groups fs z g Hne SB HR Eg. pose proof (basin_posed groups fs z Hne SB) as WP. split; [apply (gn_pose groups fs z g SB WP Eg HR)|]. split; [apply (lm_pose groups fs z g SB WP Eg HR) | apply (dl_pose groups fs z g SB WP Eg HR)].
Qed.

(* from what the tests say to a wanted accuracy *)
Lemma pose_wanted fs rho q D delta0 eps : 0 < rho -> 0 <= q < 1 -> 0 <= D -> 0 < delta0 -> 0 < eps ->
  exists delta N, 0 < delta /\ forall E z cfg solve, pose_stops E fs z rho q D delta0 cfg solve -> pose_accurate E fs z rho eps delta N cfg solve.
Proof.
  intros Pr Hq PD Pd Pe. destruct (pow_lt_1_zero q ltac:(rewrite Rabs_pos_eq; lra) (eps / rho) ltac:(apply Rdiv_lt_0_compat; auto)) as (N & HN).
  set (delta := Rmin delta0 (Rmin 1 (eps / (2 * D + 1)))). assert (D1 : delta <= delta0) by apply Rmin_l. assert (D2 : delta <= 1) by (eapply Rle_trans; [apply Rmin_r | apply Rmin_l]). assert (D3 : delta <= eps / (2 * D + 1)) by (eapply Rle_trans; [apply Rmin_r | apply Rmin_r]).
  assert (D0 : 0 < delta) by (apply Rmin_pos; auto; apply Rmin_pos; [lra | apply Rdiv_lt_0_compat; lra]). clearbody delta.
  exists delta, N. split; auto. intros E z cfg solve H Htol Hp Hit fuel init val e Hfu Hi Te Hm Hs. destruct (H ltac:(lra) ltac:(lra) fuel init val e Hfu Hi Te Hm Hs) as (a' & val' & e' & k & R1 & R2 & R3 & R4 & R5 & R6 & R7).
  exists a', val', e'. do 4 (split; auto).
  assert (Hsmall : (N <= k)%nat -> size fs e' <= eps).
  { intros Hk. specialize (HN k Hk). assert (Htk : 0 <= q ^ k) by (apply pow_le; lra). rewrite Rabs_pos_eq in HN by auto. eapply Rle_trans; [exact R6|]. apply Rle_trans with (q ^ k * rho); [apply Rmult_le_compat_l; auto|].
    replace eps with (eps / rho * rho) by (field; lra). apply Rmult_le_compat_r; lra. }
  destruct R7 as [R7|[R7|R7]]; [apply Hsmall; lia | apply Hsmall; lia|]. eapply Rle_trans; [exact R7|]. set (p := parameter_tolerance cfg) in *.
  assert (Hpp : p * (1 + p) <= 2 * delta) by nra. apply Rle_trans with (D * (2 * delta)); [apply Rmult_le_compat_l; auto|].
  apply (Rmult_le_compat_r (2 * D + 1)) in D3; [|lra]. replace (eps / (2 * D + 1) * (2 * D + 1)) with eps in D3 by (field; lra). nra.
Qed.

Lemma pose_stop_accuracy : forall groups fs z g, fs <> [] -> solved_by groups fs z -> rigid groups fs z -> graph_make (pose_env groups) fs = Ok g ->
  (exists rho, 0 < rho /\ forall eps, 0 < eps -> exists delta N, 0 < delta /\
     forall cfg, pose_accurate (pose_env groups) fs z rho eps delta N cfg (fun fuel => gn_solve (pose_env groups) fuel cfg cholmod_solve g)) /\
  (forall qmin lambda, qmin < 1 -> 0 < lambda -> exists rho, 0 < rho /\ forall eps, 0 < eps -> exists delta N, 0 < delta /\
     forall cfg, lm_quality_min cfg <= qmin -> 1 <= lambda_factor cfg -> 0 < lambda_min cfg -> 0 < lambda_initial cfg <= lambda ->
       pose_accurate (pose_env groups) fs z rho eps delta N (lm_term cfg) (fun fuel => lm_solve (pose_env groups) fuel cfg cholmod_solve g)) /\
  (forall qmin radius, qmin < 1 -> 0 < radius -> exists rho, 0 < rho /\ forall eps, 0 < eps -> exists delta N, 0 < delta /\
     forall cfg, dl_quality_min cfg <= qmin -> radius <= radius_initial cfg ->
       pose_accurate (pose_env groups) fs z rho eps delta N (dl_term cfg) (fun fuel => dl_solve (pose_env groups) fuel cfg cholmod_solve g)).
Proof.
  intros groups fs z g Hne SB HR Eg. destruct (pose_stop_solves groups fs z g Hne SB HR Eg) as (HG & HL & HD). split; [|split].
  - destruct HG as (q & rho & D & d0 & Q & R & P1 & P2 & H). exists rho. split; auto. intros eps Pe. destruct (pose_wanted fs rho q D d0 eps R Q P1 P2 Pe) as (delta & N & Pd & Hw). exists delta, N. split; auto.
  - intros qmin lambda H1 H2. destruct (HL qmin lambda H1 H2) as (q & rho & D & d0 & Q & R & P1 & P2 & H). exists rho. split; auto. intros eps Pe. destruct (pose_wanted fs rho q D d0 eps R Q P1 P2 Pe) as (delta & N & Pd & Hw). exists delta, N. split; auto.
  - intros qmin radius H1 H2. destruct (HD qmin radius H1 H2) as (q & rho & D & d0 & Q & R & P1 & P2 & H). exists rho. split; auto. intros eps Pe. destruct (pose_wanted fs rho q D d0 eps R Q P1 P2 Pe) as (delta & N & Pd & Hw). exists delta, N. split; auto.
Qed.

Lemma accurate_weaken E fs z rho rho' eps delta delta' N N' cfg solve : rho' <= rho -> delta' <= delta -> (N <= N')%nat ->
  pose_accurate E fs z rho eps delta N cfg solve -> pose_accurate E fs z rho' eps delta' N' cfg solve.
Proof. intros H1 H2 H3 H C1 C2 C3 fuel init val e F1 F2 F3 F4 F5. apply (H ltac:(lra) ltac:(lra) ltac:(lia) fuel init val e); auto. lra. Qed.

Lemma pose_stop_tied : forall groups fs z g, fs <> [] -> solved_by groups fs z -> (forall v, In v (mentioned fs) -> tied fs v) -> graph_make (pose_env groups) fs = Ok g ->
  exists rho, 0 < rho /\ forall eps, 0 < eps -> exists delta N, 0 < delta /\ forall t,
    pose_accurate (pose_env groups) fs z rho eps delta N t (fun fuel => gn_solve (pose_env groups) fuel t cholmod_solve g) /\
    pose_accurate (pose_env groups) fs z rho eps delta N t (fun fuel => lm_solve (pose_env groups) fuel (lm_with t) cholmod_solve g) /\
    pose_accurate (pose_env groups) fs z rho eps delta N t (fun fuel => dl_solve (pose_env groups) fuel (dl_with t) cholmod_solve g).
Proof.
  intros groups fs z g Hne SB HT Eg. pose proof (basin_tied groups fs z SB HT) as HR. destruct (pose_stop_accuracy groups fs z g Hne SB HR Eg) as (HG & HL & HD).
  destruct (ex_defaults 0%Z) as ((L1 & L2 & L3 & L4) & D1 & D2).
  destruct HG as (r1 & P1 & HG). destruct (HL (lm_quality_min (lm_default 0)) (lambda_initial (lm_default 0)) L4 L1) as (r2 & P2 & HL'). destruct (HD (dl_quality_min (dl_default 0)) (radius_initial (dl_default 0)) D2 D1) as (r3 & P3 & HD').
  destruct (min4 r1 r2 r3 1 P1 P2 P3 ltac:(lra)) as (rho & Pr & M1 & M2 & M3 & _). exists rho. split; auto. intros eps Pe.
  destruct (HG eps Pe) as (d1 & N1 & Q1 & W1). destruct (HL' eps Pe) as (d2 & N2 & Q2 & W2). destruct (HD' eps Pe) as (d3 & N3 & Q3 & W3).
  destruct (min4 d1 d2 d3 1 Q1 Q2 Q3 ltac:(lra)) as (delta & Pd & K1 & K2 & K3 & _). exists delta, (N1 + N2 + N3)%nat. split; auto. intros t. split; [|split].
  - apply (accurate_weaken _ fs z r1 rho eps d1 delta N1); auto; lia.
  - apply (accurate_weaken _ fs z r2 rho eps d2 delta N2); auto; [lia|]. apply (W2 (lm_with t)); auto; cbn [lm_with lm_quality_min lambda_factor lambda_min lambda_initial]; try apply Rle_refl. split; [auto | apply Rle_refl].
  - apply (accurate_weaken _ fs z r3 rho eps d3 delta N3); auto; [lia|]. apply (W3 (dl_with t)); apply Rle_refl.
Qed.

(* starting values as close as wanted, but not exact, and a configuration as required *)
Lemma ex_pose_stop : solved_by ex_groups ex_space ex_placed /\ (forall v, In v (mentioned ex_space) -> tied ex_space v) /\ (exists g, graph_make (pose_env ex_groups) ex_space = Ok g) /\
  forall rho delta N, 0 < rho -> 0 < delta -> exists e init val cfg, tangent (pose_env ex_groups) ex_space e /\ moved (pose_env ex_groups) ex_space ex_placed e val /\ assigns (pose_env ex_groups) ex_space init val /\
    0 < size ex_space e <= rho /\ cost_tolerance cfg <= delta /\ 0 <= parameter_tolerance cfg <= delta /\ (Z.of_nat N <= max_iterations cfg <= gradient_start cfg)%Z.
Proof.
  destruct ex_basin as (H1 & H2 & _ & H3 & H4). split; auto. split; auto. split; auto. intros rho delta N Pr Pd.
  set (e := fun v : var => if eqb v sb then [rho; 0; 0; 0; 0; 0] else [0; 0; 0; 0; 0; 0]).
  assert (Te : tangent (pose_env ex_groups) ex_space e) by (intros v [<-|[<-|[]]]; reflexivity). destruct (H4 e Te) as (init & val & M & A & _).
  exists e, init, val, (mkTerm (Z.of_nat N) delta 0 (Z.of_nat N) delta). split; auto. split; auto. split; auto.
  assert (Hs : size ex_space e = rho). { unfold size, inner. apply eq_trans with (sqrt (rho * rho)); [|apply sqrt_square; lra]. f_equal. unfold e, vdot. cbn. rn. unfold vsum. cbn. rn. ring. }
  rewrite Hs. cbn. split; [lra|]. split; [lra|]. split; [lra | lia].
Qed.
