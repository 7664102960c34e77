(* Bundled statements and a concrete instance: what the stopping tests guarantee on every consistent pose graph. *)
From Coq Require Import String List Arith Bool ZArith Lia Reals Lra Psatz.
From Verif Require Import Num NumR Py Arr MLayout MAssign MNoise MSparse MFactor MGraph MLinear MSolver MLie MPose SpecLayout SpecTree SpecAssign SpecNoise SpecGraph SpecLie SpecPose SpecZero SpecSpatial SpecTwin SpecInv SpecOrder SpecSolver SpecLocal SpecFrame SpecBook SpecNear SpecBasin SpecGauge SpecLoose Ex ExG ExS.
From Verif Require Import PBase PVec PLie PPose PFrame PLin PLinDl PFree PJacZero PTwin2 PZero PSpatial PSpatial2 PSpatial3 PSpatial4 PNear PDeriv PBook PBasin6 PBasin7 PExBook PExInv PExZero PBasin4 PBasin5 PBasin8 PBasin9 PBasin10 PBasin11 PBasin12 PExBasin PGauge PGauge2 PGauge3 PGauge4 PExGauge PLoose PLoose2 PLoose3.
From Verif Require Import SpecLayout SpecTree SpecAssign SpecSolver SpecBook SpecBasin SpecLoose SpecDrift SpecPoseStop SpecQuit Ex ExG ExS PBasin10 PBasin11 PBasin12 PExBasin PExPoseStop PExLoose PLoose3 PDrift2 PQuit PQuit2.
Import ListNotations.
Local Open Scope R_scope.
Notation moved := SpecBook.moved.

Lemma quit_solves : forall groups fs z g, fs <> [] -> solved_by groups fs z -> graph_make (pose_env groups) fs = Ok g ->
  (exists q C rho D delta, 0 <= q < 1 /\ 0 <= C /\ 0 < rho /\ 0 <= D /\ 0 < delta /\
     forall cfg, quits groups fs z rho q C D delta cfg (fun fuel => gn_solve (pose_env groups) fuel cfg cholmod_solve g)) /\
  (forall qmin lambda, qmin < 1 -> 0 < lambda -> exists q C rho D delta, 0 <= q < 1 /\ 0 <= C /\ 0 < rho /\ 0 <= D /\ 0 < delta /\
     forall cfg, lm_quality_min cfg <= qmin -> 1 <= lambda_factor cfg -> 0 < lambda_min cfg -> 0 < lambda_initial cfg <= lambda ->
       quits groups fs z rho q C D delta (lm_term cfg) (fun fuel => lm_solve (pose_env groups) fuel cfg cholmod_solve g)) /\
  (forall qmin radius, qmin < 1 -> 0 < radius -> exists q C rho D delta, 0 <= q < 1 /\ 0 <= C /\ 0 < rho /\ 0 <= D /\ 0 < delta /\
     forall cfg, dl_quality_min cfg <= qmin -> radius <= radius_initial cfg ->
       quits groups fs z rho q C D delta (dl_term cfg) (fun fuel => dl_solve (pose_env groups) fuel cfg cholmod_solve g)).
Proof.
  intros groups fs z g Hne SB Eg. pose proof (basin_posed groups fs z Hne SB) as WP. destruct (parts_exist groups fs (fun f Hf => proj1 (sb_factors _ _ _ SB f Hf))) as (rt & HP).
  split; [apply (quit_gn groups fs z g SB WP Eg rt HP)|]. split; [apply (quit_lm groups fs z g SB WP Eg rt HP) | apply (quit_dl groups fs z g SB WP Eg rt HP)].
Qed.

(* from what the tests say to a wanted accuracy of the stored parameters *)
Lemma quit_wanted groups fs z q C rho D delta0 : solved_by groups fs z -> 0 <= q < 1 -> 0 <= C -> 0 < rho -> 0 <= D -> 0 < delta0 ->
  forall eps bound, 0 < eps -> 0 <= bound -> exists delta N, 0 < delta /\ forall cfg solve, quits groups fs z rho q C D delta0 cfg solve -> quits_close groups fs z rho bound eps delta N cfg solve.
Proof.
  intros SB Hq PC Pr PD Pd eps bound Pe Pb. destruct (solution_within groups fs z SB) as (K & dk & HK & Hdk & HW). set (eta := Rmin dk (eps / (K + 1))). assert (Peta : 0 < eta) by (apply Rmin_pos; auto; apply Rdiv_lt_0_compat; lra). assert (E1 : eta <= dk) by apply Rmin_l. assert (E2 : eta <= eps / (K + 1)) by apply Rmin_r. clearbody eta.
  destruct (pow_lt_1_zero q ltac:(rewrite Rabs_pos_eq; lra) (eta / ((C + 1) * rho)) ltac:(apply Rdiv_lt_0_compat; auto; apply Rmult_lt_0_compat; lra)) as (N & HN). set (D' := D * (1 + bound)). assert (PD' : 0 <= D') by (apply Rmult_le_pos; lra).
  set (delta := Rmin delta0 (Rmin 1 (eta / (2 * D' + 1)))). assert (D1 : delta <= delta0) by apply Rmin_l. assert (D2 : delta <= 1) by (eapply Rle_trans; [apply Rmin_r | apply Rmin_l]). assert (D3 : delta <= eta / (2 * D' + 1)) by (eapply Rle_trans; [apply Rmin_r | apply Rmin_r]).
  assert (D0 : 0 < delta) by (apply Rmin_pos; auto; apply Rmin_pos; [lra | apply Rdiv_lt_0_compat; lra]). clearbody delta.
  exists delta, N. split; auto. intros cfg solve H Htol Hp Hit fuel init val e Hfu Hi Hpb Ho Hs. destruct (H ltac:(lra) ltac:(lra) bound fuel init val e Pb Hfu Hi Hpb Ho Hs) as (a' & val' & e' & k & R1 & R2 & R3 & R4 & R5 & R6). fold D' in R6. pose proof (size_pos fs e) as P0. pose proof (size_pos fs e') as P1.
  assert (Hsmall : (N <= k)%nat -> size fs e' <= eta).
  { intros Hk. specialize (HN k Hk). assert (Htk : 0 <= q ^ k) by (apply pow_le; lra). rewrite Rabs_pos_eq in HN by auto. eapply Rle_trans; [exact R5|]. apply Rle_trans with (q ^ k * ((C + 1) * rho)).
    - rewrite (Rmult_comm C), Rmult_assoc. apply Rmult_le_compat_l; auto. apply Rmult_le_compat; lra.
    - apply Rle_trans with (eta / ((C + 1) * rho) * ((C + 1) * rho)); [apply Rmult_le_compat_r; [apply Rmult_le_pos; lra | lra] | right; field; lra]. }
  assert (He : size fs e' <= eta).
  { destruct R6 as [R6|[R6|R6]]; [apply Hsmall; lia | apply Hsmall; lia|]. eapply Rle_trans; [exact R6|]. set (p := parameter_tolerance cfg) in *.
    assert (Hpp : p * (1 + p) <= 2 * delta) by nra. apply Rle_trans with (D' * (2 * delta)); [apply Rmult_le_compat_l; auto|].
    apply (Rmult_le_compat_r (2 * D' + 1)) in D3; [|lra]. replace (eta / (2 * D' + 1) * (2 * D' + 1)) with eta in D3 by (field; lra). nra. }
  destruct (HW val' e' R4 ltac:(lra)) as (w & W1 & W2). exists a', val', w. do 3 (split; [assumption|]). eapply within_more; [|exact W2]. apply small_mul; lra.
Qed.

Lemma quits_weaken groups fs z rho rho' bound eps delta delta' N N' cfg solve : rho' <= rho -> delta' <= delta -> (N <= N')%nat ->
  quits_close groups fs z rho bound eps delta N cfg solve -> quits_close groups fs z rho' bound eps delta' N' cfg solve.
Proof. intros H1 H2 H3 H C1 C2 C3 fuel init val e F1 F2 F3 F4 F5. apply (H ltac:(lra) ltac:(lra) ltac:(lia) fuel init val e); auto. lra. Qed.

Lemma quit_accuracy : forall groups fs z g, fs <> [] -> solved_by groups fs z -> graph_make (pose_env groups) fs = Ok g ->
  exists rho, 0 < rho /\ forall eps bound, 0 < eps -> 0 <= bound -> exists delta N, 0 < delta /\ forall t,
    quits_close groups fs z rho bound eps delta N t (fun fuel => gn_solve (pose_env groups) fuel t cholmod_solve g) /\
    quits_close groups fs z rho bound eps delta N t (fun fuel => lm_solve (pose_env groups) fuel (lm_with t) cholmod_solve g) /\
    quits_close groups fs z rho bound eps delta N t (fun fuel => dl_solve (pose_env groups) fuel (dl_with t) cholmod_solve g).
Proof.
  intros groups fs z g Hne SB Eg. destruct (quit_solves groups fs z g Hne SB Eg) as (HG & HL & HD). destruct (ex_defaults 0%Z) as ((L1 & L2 & L3 & L4) & D1 & D2).
  destruct HG as (q1 & C1 & r1 & E1 & f1 & A1 & A2 & P1 & A3 & A4 & HG). destruct (HL (lm_quality_min (lm_default 0)) (lambda_initial (lm_default 0)) L4 L1) as (q2 & C2 & r2 & E2 & f2 & B1 & B2 & P2 & B3 & B4 & HL'). destruct (HD (dl_quality_min (dl_default 0)) (radius_initial (dl_default 0)) D2 D1) as (q3 & C3 & r3 & E3 & f3 & F1 & F2 & P3 & F3 & F4 & HD').
  destruct (min4 r1 r2 r3 1 P1 P2 P3 ltac:(lra)) as (rho & Pr & M1 & M2 & M3 & _). exists rho. split; auto. intros eps bound Pe Pb.
  destruct (quit_wanted groups fs z q1 C1 r1 E1 f1 SB A1 A2 P1 A3 A4 eps bound Pe Pb) as (d1 & N1 & Q1 & W1). destruct (quit_wanted groups fs z q2 C2 r2 E2 f2 SB B1 B2 P2 B3 B4 eps bound Pe Pb) as (d2 & N2 & Q2 & W2). destruct (quit_wanted groups fs z q3 C3 r3 E3 f3 SB F1 F2 P3 F3 F4 eps bound Pe Pb) as (d3 & N3 & Q3 & W3).
  destruct (min4 d1 d2 d3 1 Q1 Q2 Q3 ltac:(lra)) as (delta & Pd & K1 & K2 & K3 & _). exists delta, (N1 + N2 + N3)%nat. split; auto. intros t. split; [|split].
  - apply (quits_weaken groups fs z r1 rho bound eps d1 delta N1); auto; lia.
  - apply (quits_weaken groups fs z r2 rho bound eps d2 delta N2); auto; [lia|]. apply W2. apply (HL' (lm_with t)); auto; cbn [lm_with lm_quality_min lambda_factor lambda_min lambda_initial]; try apply Rle_refl. split; [auto | apply Rle_refl].
  - apply (quits_weaken groups fs z r3 rho bound eps d3 delta N3); auto; [lia|]. apply W3. apply (HD' (dl_with t)); apply Rle_refl.
Qed.

(* finitely many stored parameters are bounded *)
Lemma list_below (l : list R) : exists b, 0 <= b /\ forall i, Rabs (nth i l 0) <= b.
Proof.
  induction l as [|x l (b & Hb & H)]; [exists 0; split; [lra|]; intros [|i]; cbn; rewrite Rabs_R0; lra|]. exists (Rabs x + b). pose proof (Rabs_pos x). split; [lra|]. intros [|i]; cbn; [lra|]. specialize (H i). lra.
Qed.
Lemma poses_below_exists fs val : exists bound, 0 <= bound /\ poses_below fs bound val.
Proof.
  unfold poses_below. induction (mentioned fs) as [|v l (b & Hb & H)]; [exists 0; split; [lra | intros v []]|]. destruct (list_below (params (val v))) as (b' & Hb' & H'). exists (b + b'). split; [lra|]. intros w [<-|Hw] i; [specialize (H' i); lra | specialize (H w Hw i); lra].
Qed.

(* starting values as close as wanted, but not exact, and a configuration as required *)
Lemma ex_quit : solved_by ex_groups ex_parted ex_spread /\ ex_parted <> [] /\ (exists g, graph_make (pose_env ex_groups) ex_parted = Ok g) /\
  forall rho, 0 < rho -> exists bound e init val, 0 <= bound /\ apart ex_groups ex_parted ex_spread val e /\ assigns (pose_env ex_groups) ex_parted init val /\ poses_below ex_parted bound val /\ 0 < size ex_parted e <= rho /\
    forall delta N, 0 < delta -> exists cfg, cost_tolerance cfg <= delta /\ 0 < parameter_tolerance cfg <= delta /\ (Z.of_nat N <= max_iterations cfg <= gradient_start cfg)%Z.
Proof.
  destruct ex_loose as (H1 & H2 & _ & _ & H3 & H4). split; auto. split; auto. split; auto. intros rho Pr.
  set (e := fun v : var => if eqb v sd then [rho; 0; 0; 0; 0; 0] else [0; 0; 0; 0; 0; 0]).
  assert (Te : tangent (pose_env ex_groups) ex_parted e) by (intros v [<-|[<-|[<-|[<-|[]]]]]; reflexivity). destruct (H4 e Te) as (init & val & M & A & _). destruct (poses_below_exists ex_parted val) as (bound & Hb & Hp).
  exists bound, e, init, val. do 4 (split; [assumption|]).
  assert (Hs : size ex_parted e = rho). { unfold size, inner. apply eq_trans with (sqrt (rho * rho)); [|apply sqrt_square; lra]. f_equal. unfold e, vdot. cbn. rn. unfold vsum. cbn. rn. ring. }
  rewrite Hs. split; [lra|]. intros delta N Pd. exists (mkTerm (Z.of_nat N) delta 0 (Z.of_nat N) delta). cbn. split; [lra|]. split; [lra | lia].
Qed.
