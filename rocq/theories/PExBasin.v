(* Bundled statements and a concrete instance: local convergence of Gauss-Newton on pose graphs. *)
From Coq Require Import String List Arith Bool Lia Reals Lra ZArith.
From Verif Require Import Num NumR Py Arr MLayout MAssign MNoise MSparse MFactor MGraph MLinear MSolver MLie MPose SpecLayout SpecTree SpecAssign SpecNoise SpecGraph SpecLie SpecPose SpecZero SpecSpatial SpecTwin SpecInv SpecOrder SpecSolver SpecLocal SpecBook SpecNear SpecBasin Ex ExG ExS.
From Verif Require Import PBase PVec PLie PPose PFrame PZero PBook PExBook PExInv PExZero PBasin5 PBasin8 PBasin9 PBasin10 PBasin11 PBasin12.
Import ListNotations.
Local Open Scope R_scope.

Lemma basin_turns : forall groups fs z, solved_by groups fs z -> rigid groups fs z ->
  exists m rho K, 0 < m /\ 0 < rho /\ 0 <= K /\ forall beta val e xi val', 0 < beta -> tangent (pose_env groups) fs e -> size fs e <= rho -> moved (pose_env groups) fs z e val ->
    damped_step (pose_env groups) fs beta val val xi -> moved (pose_env groups) fs val xi val' ->
    exists e', tangent (pose_env groups) fs e' /\ moved (pose_env groups) fs z e' val' /\ size fs e' <= (beta / (m * m + beta) + K * size fs e) * size fs e.
Proof. intros groups fs z SB HR. apply turn; auto. Qed.

Lemma basin_runs : forall groups fs z, solved_by groups fs z -> rigid groups fs z ->
  exists q rho, 0 <= q < 1 /\ 0 < rho /\ forall k val e val', tangent (pose_env groups) fs e -> size fs e <= rho -> moved (pose_env groups) fs z e val ->
    turns (gauss_newton_turn (pose_env groups) fs) k val val' ->
    exists e', tangent (pose_env groups) fs e' /\ moved (pose_env groups) fs z e' val' /\ size fs e' <= q ^ k * size fs e.
Proof. intros groups fs z SB HR. apply basin_run; auto. Qed.

Lemma basin_tied : forall groups fs z, solved_by groups fs z -> (forall v, In v (mentioned fs) -> tied fs v) -> rigid groups fs z.
Proof. intros groups fs z SB HT. apply tied_rigid; auto. Qed.

Lemma basin_posed groups fs z : fs <> [] -> solved_by groups fs z -> well_posed (pose_env groups) fs.
Proof. intros Hne SB. apply pose_posed; auto; [intros f Hf; apply (sb_factors _ _ _ SB f Hf) | apply (sb_groups _ _ _ SB)]. Qed.

Lemma basin_solve : forall groups fs z g, fs <> [] -> solved_by groups fs z -> rigid groups fs z -> graph_make (pose_env groups) fs = Ok g ->
  exists q rho, 0 <= q < 1 /\ 0 < rho /\ forall init val e fuel, assigns (pose_env groups) fs init val -> tangent (pose_env groups) fs e -> moved (pose_env groups) fs z e val -> size fs e <= rho ->
    (forall cfg, (iteration_cap (max_iterations cfg) <= fuel)%nat ->
       exists a' k val' e', gn_solve (pose_env groups) fuel cfg cholmod_solve g init = Some (Ok a') /\ (1 <= k <= iteration_cap (max_iterations cfg))%nat /\
         assigns (pose_env groups) fs a' val' /\ tangent (pose_env groups) fs e' /\ moved (pose_env groups) fs z e' val' /\ size fs e' <= q ^ k * size fs e) /\
    (forall unroll it, same_layout (as_layout init) (g_layout g) -> (1 <= it)%Z -> (Z.to_nat it <= fuel)%nat ->
       exists a' val' e', fixed_solve (pose_env groups) fuel unroll it cholmod_solve g init = Some (Ok a') /\
         assigns (pose_env groups) fs a' val' /\ tangent (pose_env groups) fs e' /\ moved (pose_env groups) fs z e' val' /\ size fs e' <= q ^ Z.to_nat it * size fs e).
Proof.
  intros groups fs z g Hne SB HR Eg. pose proof (basin_posed groups fs z Hne SB) as WP. destruct (basin_run groups fs z SB HR) as (q & rho & Hq & Hrho & HT). exists q, rho. split; auto. split; auto.
  intros init val e fuel Ha Te Hm Hs. split.
  - intros cfg Hc. destruct (gn_solves (pose_env groups) fs g WP Eg cfg fuel init val Ha Hc) as (a' & k & val' & H1 & H2 & H3 & H4). destruct (HT k val e val' Te Hs Hm H3) as (e' & T' & M' & S'). exists a', k, val', e'. auto 10.
  - intros unroll it Hl Hit Hf. destruct (fixed_solves (pose_env groups) fs g WP Eg fuel unroll it init val Ha Hl Hit Hf) as (a' & val' & H1 & H2 & H3). destruct (HT _ val e val' Te Hs Hm H2) as (e' & T' & M' & S'). exists a', val', e'. auto 10.
Qed.

Lemma basin_limit : forall groups fs z g, fs <> [] -> solved_by groups fs z -> rigid groups fs z -> graph_make (pose_env groups) fs = Ok g ->
  exists rho, 0 < rho /\ forall eps, 0 < eps -> exists least, (1 <= least)%Z /\ forall it unroll init val e, (least <= it)%Z ->
    assigns (pose_env groups) fs init val -> same_layout (as_layout init) (g_layout g) -> tangent (pose_env groups) fs e -> moved (pose_env groups) fs z e val -> size fs e <= rho ->
    exists a' val' e', fixed_solve (pose_env groups) (Z.to_nat it) unroll it cholmod_solve g init = Some (Ok a') /\
      assigns (pose_env groups) fs a' val' /\ tangent (pose_env groups) fs e' /\ moved (pose_env groups) fs z e' val' /\ size fs e' < eps.
Proof.
  intros groups fs z g Hne SB HR Eg. destruct (basin_solve groups fs z g Hne SB HR Eg) as (q & rho & Hq & Hrho & HT). exists rho. split; auto. intros eps He.
  destruct (pow_lt_1_zero q) with (y := eps / (rho + 1)) as (N & HN); [rewrite Rabs_pos_eq; lra | apply Rdiv_lt_0_compat; lra|].
  exists (Z.of_nat (S N)). split; [lia|]. intros it unroll init val e Hit Ha Hl Te Hm Hs. destruct (HT init val e (Z.to_nat it) Ha Te Hm Hs) as (_ & HF).
  destruct (HF unroll it Hl ltac:(lia) (le_n _)) as (a' & val' & e' & H1 & H2 & H3 & H4 & H5). exists a', val', e'. do 4 (split; auto). eapply Rle_lt_trans; [exact H5|].
  assert (Hp : 0 <= q ^ Z.to_nat it) by (apply pow_le; lra). specialize (HN (Z.to_nat it) ltac:(lia)). rewrite Rabs_pos_eq in HN by auto. pose proof (size_pos fs e) as P.
  apply Rle_lt_trans with (q ^ Z.to_nat it * (rho + 1)); [apply Rmult_le_compat_l; lra|]. apply (Rmult_lt_compat_r (rho + 1)) in HN; [|lra]. replace (eps / (rho + 1) * (rho + 1)) with eps in HN by (field; lra). auto.
Qed.

Lemma basin_gain : forall groups fs z, solved_by groups fs z -> rigid groups fs z -> forall b0 b1, 0 < b0 -> b0 <= b1 ->
  exists rho C, 0 < rho /\ 0 <= C /\ forall beta val e xi val', b0 <= beta <= b1 -> tangent (pose_env groups) fs e -> 0 < size fs e <= rho -> moved (pose_env groups) fs z e val ->
    damped_step (pose_env groups) fs beta val val xi -> moved (pose_env groups) fs val xi val' -> Rabs (quality (pose_env groups) fs val val xi val' - 1) <= C * size fs e.
Proof.
  intros groups fs z SB HR b0 b1 H0 H1. destruct (predict groups fs z SB HR b0 b1 H0 H1) as (rho & C & Hr & HC & HP). exists rho, C. split; auto. split; auto. intros beta val e xi val' Hb Te (Hp & Hs) Hm Hd Hv. apply (HP beta val e xi val'); auto.
Qed.

Lemma basin_trust : forall groups fs z g, fs <> [] -> solved_by groups fs z -> rigid groups fs z -> graph_make (pose_env groups) fs = Ok g ->
  (forall cfg, 0 < lambda_initial cfg -> 1 <= lambda_factor cfg -> 0 < lambda_min cfg -> lm_quality_min cfg < 1 ->
     exists q rho, 0 <= q < 1 /\ 0 < rho /\ forall init val e fuel, assigns (pose_env groups) fs init val -> tangent (pose_env groups) fs e -> moved (pose_env groups) fs z e val -> size fs e <= rho ->
       (iteration_cap (max_iterations (lm_term cfg)) <= fuel)%nat ->
       exists a' k val' e', lm_solve (pose_env groups) fuel cfg cholmod_solve g init = Some (Ok a') /\ (1 <= k <= iteration_cap (max_iterations (lm_term cfg)))%nat /\
         assigns (pose_env groups) fs a' val' /\ tangent (pose_env groups) fs e' /\ moved (pose_env groups) fs z e' val' /\ size fs e' <= q ^ k * size fs e) /\
  (forall cfg, 0 < radius_initial cfg -> dl_quality_min cfg < 1 ->
     exists q rho, 0 <= q < 1 /\ 0 < rho /\ forall init val e fuel, assigns (pose_env groups) fs init val -> tangent (pose_env groups) fs e -> moved (pose_env groups) fs z e val -> size fs e <= rho ->
       (iteration_cap (max_iterations (dl_term cfg)) <= fuel)%nat ->
       exists a' k val' e', dl_solve (pose_env groups) fuel cfg cholmod_solve g init = Some (Ok a') /\ (1 <= k <= iteration_cap (max_iterations (dl_term cfg)))%nat /\
         assigns (pose_env groups) fs a' val' /\ tangent (pose_env groups) fs e' /\ moved (pose_env groups) fs z e' val' /\ size fs e' <= q ^ k * size fs e).
Proof.
  intros groups fs z g Hne SB HR Eg. pose proof (basin_posed groups fs z Hne SB) as WP. split.
  - intros cfg H1 H2 H3 H4. destruct (lm_basin groups fs z SB cfg HR H1 H2 H3 H4) as (q & rho & Hq & Hrho & HT). exists q, rho. split; auto. split; auto. intros init val e fuel Ha Te Hm Hs Hf.
    destruct (lm_solves (pose_env groups) fs g WP Eg cfg fuel init val Ha Hf H1 ltac:(lra) H3) as (a' & k & b' & G1 & G2 & G3 & G4). destruct (HT k val e b' Te Hs Hm G3) as (e' & T' & M' & S'). exists a', k, (b_val b'), e'. auto 10.
  - intros cfg H1 H2. destruct (dl_basin groups fs z SB cfg HR H1 H2) as (q & rho & Hq & Hrho & HT). exists q, rho. split; auto. split; auto. intros init val e fuel Ha Te Hm Hs Hf.
    destruct (dl_solves (pose_env groups) fs g WP Eg cfg fuel init val Ha Hf H1) as (a' & k & b' & G1 & G2 & G3 & G4). destruct (HT k val e b' Te Hs Hm G3) as (e' & T' & M' & S'). exists a', k, (b_val b'), e'. auto 10.
Qed.

(* two poses in space: a prior on the first, and a measurement of the second from the first,
   a turn about the third axis and a shift, with a Huber loss *)
Definition sa : var := mkVar 0%nat 2%nat.
Definition sb : var := mkVar 1%nat 2%nat.
Definition dg6 : noise R := DiagGaussian (mkArr [6%nat] [1; 2; 1; 3; 1; 1]).
Definition hb6 : noise R := Huber dg6 (mkArr [] [1/2]).
Definition offset : pytree R := group_value 2%nat [3/5; 0; 0; 4/5; 1; 2; 3].
Definition ex_space : list (factor R) := [prior_make sa (group_value 2%nat [1; 0; 0; 0; 0; 0; 0]) dg6; mkFactor 1%nat [sa; sb] hb6 [offset]].
Definition ex_placed (v : var) : pytree R := if eqb v sa then group_value 2%nat [1; 0; 0; 0; 0; 0; 0] else offset.

Ltac rip x := do 7 (destruct x as [|? x]; [discriminate|]); destruct x; [|discriminate].
Lemma se3_unit t p : t = 2%nat -> norm4 p = 1 -> unit_pose (ex_groups t) p.
Proof. intros -> H. split; [|auto]. intros Hs. exfalso. eapply not_both; [exact Hs|apply spatial_se3]. Qed.
Lemma ex_basin : solved_by ex_groups ex_space ex_placed /\ (forall v, In v (mentioned ex_space) -> tied ex_space v) /\ rigid ex_groups ex_space ex_placed /\
  (exists g, graph_make (pose_env ex_groups) ex_space = Ok g) /\
  forall e, tangent (pose_env ex_groups) ex_space e -> exists init val, moved (pose_env ex_groups) ex_space ex_placed e val /\ assigns (pose_env ex_groups) ex_space init val /\
    forall g, graph_make (pose_env ex_groups) ex_space = Ok g -> same_layout (as_layout init) (g_layout g).
Proof.
  assert (Hf : forall f, In f ex_space -> pose_factor ex_groups f).
  { intros f [<-|[<-|[]]].
    - constructor; [exists [1; 0; 0; 0; 0; 0; 0]; split; reflexivity| |reflexivity]. split; [reflexivity | exists 6%nat; reflexivity].
    - eapply (pf_between ex_groups sa sb offset hb6); try reflexivity; [exists [3/5; 0; 0; 4/5; 1; 2; 3]; split; reflexivity|]. split; [split; [reflexivity | exists 6%nat; reflexivity]|]. split; reflexivity. }
  assert (Hn : informative dg6) by (repeat (constructor; [lra|]); constructor).
  assert (SB : solved_by ex_groups ex_space ex_placed).
  { constructor.
    - intros f Hin. split; [auto|]. destruct Hin as [<-|[<-|[]]].
      + split; [auto|]. split; [|left; reflexivity]. intros v x [<-|[]] [<-|[]]. apply se3_unit; [reflexivity|]. unfold norm4. cbn. lra.
      + split; [split; [auto|]; exists (1/2); split; [reflexivity|lra]|]. split; [intros v x [<-|[<-|[]]] [<-|[]]; (apply se3_unit; [reflexivity|]); unfold norm4; cbn; lra|].
        left. cbn. unfold se3_mul. cbn. lists; rn; try ring.
    - intros v [<-|[<-|[]]]; right; constructor.
    - intros v [<-|[<-|[]]]; (split; [|apply se3_unit; [reflexivity|]; unfold norm4; cbn; lra]); eexists; split; reflexivity. }
  assert (HT : forall v, In v (mentioned ex_space) -> tied ex_space v).
  { assert (Ta : tied ex_space sa) by (eapply tied_prior; left; reflexivity). intros v [<-|[<-|[]]]; auto. eapply tied_next with (va := sa) (Tab := offset) (n := hb6); [reflexivity | right; left; reflexivity | auto]. }
  split; auto. split; auto. split; [apply tied_rigid; auto|]. split; [eexists; reflexivity|].
  intros e Te. set (xa := lie_retract (ex_groups 2%nat) (params (ex_placed sa)) (e sa)). set (xb := lie_retract (ex_groups 2%nat) (params (ex_placed sb)) (e sb)).
  assert (La : length xa = 7%nat) by reflexivity. assert (Lb : length xb = 7%nat) by reflexivity.
  exists (mkAssign (xa ++ xb) (make_layout (lie_class ex_groups) [sa; sb] false)), (fun v => if eqb v sa then group_value 2%nat xa else group_value 2%nat xb). split; [|split].
  - intros v [<-|[<-|[]]]; reflexivity.
  - exists [sa; sb]. split; [split; [repeat constructor; simpl; intuition discriminate | split; [reflexivity|cbn [as_storage]; rewrite app_length, La, Lb; reflexivity]]|]. split; [intros v; reflexivity|].
    intros v [<-|[<-|[]]]; clearbody xa xb; clear -La Lb; rip xa; rip xb; reflexivity.
  - intros g Eg. injection Eg as <-. repeat (split; [reflexivity|]); reflexivity.
Qed.

(* the default configurations *)
Lemma ex_defaults : forall n, (0 < lambda_initial (lm_default n) /\ 1 <= lambda_factor (lm_default n) /\ 0 < lambda_min (lm_default n) /\ lm_quality_min (lm_default n) < 1) /\
  0 < radius_initial (dl_default n) /\ dl_quality_min (dl_default n) < 1.
Proof. intros n. unfold lm_default, dl_default, lit. cbn [lambda_initial lambda_factor lambda_min lm_quality_min radius_initial dl_quality_min]. cbn. unfold Rlit. repeat split; lra. Qed.
