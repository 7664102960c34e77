(* The theorems of PropNoisy.v, and a concrete case. *)
From Coq Require Import List Arith Bool Lia Reals Lra ZArith.
From Verif Require Import Num NumR Py Arr MLayout MAssign MNoise MSparse MFactor MGraph MLinear MSolver MLie MPose SpecLayout SpecTree SpecAssign SpecNoise SpecGraph SpecLie SpecPose SpecZero SpecSpatial SpecTwin SpecInv SpecOrder SpecSolver SpecLocal SpecBook SpecNear SpecBasin SpecNoisy Ex ExG ExS PBase PExBook PExInv PExBasin PGraph PPose PZero PBook PBasin8 PBasin9 PNoisy2 PNoisy3.
Import ListNotations.
Local Open Scope R_scope.

Lemma noisy_turns : forall groups fs z, solved_by groups fs z -> rigid groups fs z ->
  exists m rho K, 0 < m /\ 0 < rho /\ 0 <= K /\ forall eps fs' beta val e xi val', 0 <= eps <= rho -> noisy groups eps fs fs' -> 0 < beta -> tangent (pose_env groups) fs e -> size fs e <= rho -> moved (pose_env groups) fs z e val ->
    damped_step (pose_env groups) fs' beta val val xi -> moved (pose_env groups) fs' val xi val' ->
    exists e', tangent (pose_env groups) fs e' /\ moved (pose_env groups) fs z e' val' /\ size fs e' <= (beta / (m * m + beta) + K * size fs e) * size fs e + K * eps.
Proof. intros groups fs z SB HR. apply noisy_turn; auto. Qed.
Lemma noisy_runs : forall groups fs z, solved_by groups fs z -> rigid groups fs z ->
  exists q rho K, 0 <= q < 1 /\ 0 < rho /\ 0 <= K /\ forall eps fs' k val e val', 0 <= eps <= rho -> noisy groups eps fs fs' -> tangent (pose_env groups) fs e -> size fs e <= rho -> moved (pose_env groups) fs z e val ->
    turns (gauss_newton_turn (pose_env groups) fs') k val val' ->
    exists e', tangent (pose_env groups) fs e' /\ moved (pose_env groups) fs z e' val' /\ size fs e' <= q ^ k * size fs e + K * eps.
Proof. intros groups fs z SB HR. apply noisy_run; auto. Qed.

Lemma noisy_posed groups fs z eps fs' : fs <> [] -> solved_by groups fs z -> noisy groups eps fs fs' -> well_posed (pose_env groups) fs'.
Proof.
  intros Hne SB Hno. pose proof (noisy_mentioned groups fs z SB eps fs' Hno) as Hme. destruct (noisy_pairs groups fs eps fs' Hno) as (ps & Efs & -> & Hp). apply pose_posed.
  - intros f Hf. apply in_map_iff in Hf. destruct Hf as (p & <- & Hin). destruct (Hp p Hin) as (Ho & Hi). apply (off_pose groups eps (fst p)); auto; [|apply (sb_factors _ _ _ SB _ Hi)]. intros v Hv. apply (kn groups fs z SB). apply mentioned_in. eauto.
  - rewrite Hme. apply (sb_groups _ _ _ SB).
  - intros H. apply Hne. rewrite Efs. destruct ps; [auto|discriminate].
Qed.

Lemma noisy_solve : forall groups fs z, fs <> [] -> solved_by groups fs z -> rigid groups fs z ->
  exists q rho K, 0 <= q < 1 /\ 0 < rho /\ 0 <= K /\ forall eps fs' g init val e fuel, 0 <= eps <= rho -> noisy groups eps fs fs' -> graph_make (pose_env groups) fs' = Ok g ->
    assigns (pose_env groups) fs' init val -> tangent (pose_env groups) fs e -> moved (pose_env groups) fs z e val -> size fs e <= rho ->
    (forall cfg, (iteration_cap (max_iterations cfg) <= fuel)%nat ->
       exists a' k val' e', gn_solve (pose_env groups) fuel cfg cholmod_solve g init = Some (Ok a') /\ (1 <= k <= iteration_cap (max_iterations cfg))%nat /\
         assigns (pose_env groups) fs' a' val' /\ tangent (pose_env groups) fs e' /\ moved (pose_env groups) fs z e' val' /\ size fs e' <= q ^ k * size fs e + K * eps) /\
    (forall unroll it, same_layout (as_layout init) (g_layout g) -> (1 <= it)%Z -> (Z.to_nat it <= fuel)%nat ->
       exists a' val' e', fixed_solve (pose_env groups) fuel unroll it cholmod_solve g init = Some (Ok a') /\
         assigns (pose_env groups) fs' a' val' /\ tangent (pose_env groups) fs e' /\ moved (pose_env groups) fs z e' val' /\ size fs e' <= q ^ Z.to_nat it * size fs e + K * eps).
Proof.
  intros groups fs z Hne SB HR. destruct (noisy_run groups fs z SB HR) as (q & rho & K & Hq & Hrho & HK & HT). exists q, rho, K. split; auto. split; auto. split; auto.
  intros eps fs' g init val e fuel He Hno Eg Ha Te Hm Hs. pose proof (noisy_posed groups fs z eps fs' Hne SB Hno) as WP. split.
  - intros cfg Hc. destruct (gn_solves (pose_env groups) fs' g WP Eg cfg fuel init val Ha Hc) as (a' & k & val' & H1 & H2 & H3 & H4). destruct (HT eps fs' k val e val' He Hno Te Hs Hm H3) as (e' & T' & M' & S'). exists a', k, val', e'. auto 10.
  - intros unroll it Hl Hit Hf. destruct (fixed_solves (pose_env groups) fs' g WP Eg fuel unroll it init val Ha Hl Hit Hf) as (a' & val' & H1 & H2 & H3). destruct (HT eps fs' _ val e val' He Hno Te Hs Hm H2) as (e' & T' & M' & S'). exists a', val', e'. auto 10.
Qed.

Lemma noisy_limit : forall groups fs z, fs <> [] -> solved_by groups fs z -> rigid groups fs z ->
  exists rho K, 0 < rho /\ 0 <= K /\ forall delta, 0 < delta -> exists least, (1 <= least)%Z /\ forall eps fs' g it unroll init val e, 0 <= eps <= rho -> noisy groups eps fs fs' -> graph_make (pose_env groups) fs' = Ok g -> (least <= it)%Z ->
    assigns (pose_env groups) fs' init val -> same_layout (as_layout init) (g_layout g) -> tangent (pose_env groups) fs e -> moved (pose_env groups) fs z e val -> size fs e <= rho ->
    exists a' val' e', fixed_solve (pose_env groups) (Z.to_nat it) unroll it cholmod_solve g init = Some (Ok a') /\
      assigns (pose_env groups) fs' a' val' /\ tangent (pose_env groups) fs e' /\ moved (pose_env groups) fs z e' val' /\ size fs e' < K * eps + delta.
Proof.
  intros groups fs z Hne SB HR. destruct (noisy_solve groups fs z Hne SB HR) as (q & rho & K & Hq & Hrho & HK & HT). exists rho, K. split; auto. split; auto. intros delta Hdel.
  destruct (pow_lt_1_zero q) with (y := delta / (rho + 1)) as (N & HN); [rewrite Rabs_pos_eq; lra | apply Rdiv_lt_0_compat; lra|].
  exists (Z.of_nat (S N)). split; [lia|]. intros eps fs' g it unroll init val e He Hno Eg Hit Ha Hl Te Hm Hs. destruct (HT eps fs' g init val e (Z.to_nat it) He Hno Eg Ha Te Hm Hs) as (_ & HF).
  destruct (HF unroll it Hl ltac:(lia) (le_n _)) as (a' & val' & e' & H1 & H2 & H3 & H4 & H5). exists a', val', e'. do 4 (split; auto). eapply Rle_lt_trans; [exact H5|].
  assert (Hp : 0 <= q ^ Z.to_nat it) by (apply pow_le; lra). specialize (HN (Z.to_nat it) ltac:(lia)). rewrite Rabs_pos_eq in HN by auto. pose proof (size_pos fs e) as P.
  assert (q ^ Z.to_nat it * size fs e < delta); [|lra].
  apply Rle_lt_trans with (q ^ Z.to_nat it * (rho + 1)); [apply Rmult_le_compat_l; lra|]. apply (Rmult_lt_compat_r (rho + 1)) in HN; [|lra]. replace (delta / (rho + 1) * (rho + 1)) with delta in HN by (field; lra). auto.
Qed.

(* the graph of C87_case, with both measurements moved *)
Definition ex_off (d1 d2 : list R) : list (factor R) :=
  [prior_make sa (group_value 2%nat (lie_retract (ex_groups 2%nat) [1; 0; 0; 0; 0; 0; 0] d1)) dg6; mkFactor 1%nat [sa; sb] hb6 [group_value 2%nat (lie_retract (ex_groups 2%nat) (params offset) d2)]].
Lemma ex_noisy : ex_space <> [] /\ solved_by ex_groups ex_space ex_placed /\ rigid ex_groups ex_space ex_placed /\
  (forall eps d1 d2, length d1 = 6%nat -> length d2 = 6%nat -> vnorm d1 <= eps -> vnorm d2 <= eps -> noisy ex_groups eps ex_space (ex_off d1 d2)) /\
  (forall d1 d2, exists g, graph_make (pose_env ex_groups) (ex_off d1 d2) = Ok g /\
    forall e, tangent (pose_env ex_groups) ex_space e -> exists init val, moved (pose_env ex_groups) ex_space ex_placed e val /\ assigns (pose_env ex_groups) (ex_off d1 d2) init val /\ same_layout (as_layout init) (g_layout g)).
Proof.
  destruct ex_basin as (SB & _ & HR & _ & Hmv). split; [discriminate|]. split; auto. split; auto. split.
  - intros eps d1 d2 L1 L2 H1 H2. constructor; [apply (off_prior ex_groups eps sa (group_value 2%nat [1; 0; 0; 0; 0; 0; 0]) dg6 d1); auto|]. constructor; [|constructor].
    apply (off_between ex_groups eps sa sb offset hb6 d2); auto.
  - intros d1 d2. eexists. split; [reflexivity|]. intros e Te. destruct (Hmv e Te) as (init & val & M & A & L). exists init, val. split; auto. split; [exact A|]. exact (L _ eq_refl).
Qed.
