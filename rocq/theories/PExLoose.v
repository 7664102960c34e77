(* Bundled statements and a concrete instance: pose graphs whose measurements all hold at some poses, whatever their connections. *)
From Coq Require Import String List Arith Bool Lia Reals Lra ZArith.
From Verif Require Import Num NumR Py Arr MLayout MAssign MNoise MSparse MFactor MGraph MLinear MSolver MLie MPose SpecLayout SpecTree SpecAssign SpecNoise SpecGraph SpecLie SpecPose SpecZero SpecSpatial SpecTwin SpecInv SpecOrder SpecSolver SpecLocal SpecFrame SpecBook SpecNear SpecBasin SpecGauge SpecLoose Ex ExG ExS.
From Verif Require Import PBase PVec PLie PPose PFrame PLin PLinDl PFree PJacZero PTwin2 PZero PSpatial PSpatial2 PSpatial3 PSpatial4 PNear PDeriv PBook PBasin6 PBasin7 PExBook PExInv PExZero PBasin4 PBasin5 PBasin8 PBasin9 PBasin10 PBasin11 PBasin12 PExBasin PGauge PGauge2 PGauge3 PGauge4 PExGauge PLoose PLoose2 PLoose3.
Import ListNotations.
Local Open Scope R_scope.
Notation moved := SpecBook.moved.

Lemma loose_solves : forall groups fs z g, fs <> [] -> solved_by groups fs z -> graph_make (pose_env groups) fs = Ok g ->
  exists q C rho, 0 <= q < 1 /\ 0 <= C /\ 0 < rho /\ forall init val e fuel, assigns (pose_env groups) fs init val -> apart groups fs z val e -> size fs e <= rho ->
    (forall cfg, (iteration_cap (max_iterations cfg) <= fuel)%nat ->
       exists a' k val', gn_solve (pose_env groups) fuel cfg cholmod_solve g init = Some (Ok a') /\ (1 <= k <= iteration_cap (max_iterations cfg))%nat /\
         assigns (pose_env groups) fs a' val' /\ restored groups fs z q C k val e val') /\
    (forall unroll it, same_layout (as_layout init) (g_layout g) -> (1 <= it)%Z -> (Z.to_nat it <= fuel)%nat ->
       exists a' val', fixed_solve (pose_env groups) fuel unroll it cholmod_solve g init = Some (Ok a') /\
         assigns (pose_env groups) fs a' val' /\ restored groups fs z q C (Z.to_nat it) val e val').
Proof.
  intros groups fs z g Hne SB Eg. destruct (parts_exist groups fs (fun f Hf => proj1 (sb_factors _ _ _ SB f Hf))) as (rt & HP). pose proof (basin_posed groups fs z Hne SB) as WP. destruct (loose_gn groups fs z SB rt HP) as (q & C & rho & Hq & HC & Hrho & HT).
  exists q, C, rho. do 3 (split; [assumption|]). intros init val e fuel Ha Ho Hs. split.
  - intros cfg Hc. destruct (gn_solves (pose_env groups) fs g WP Eg cfg fuel init val Ha Hc) as (a' & k & val' & H1 & H2 & H3 & H4). exists a', k, val'. do 3 (split; [assumption|]). apply (HT k val val' e); auto.
  - intros unroll it Hl Hit Hf. destruct (fixed_solves (pose_env groups) fs g WP Eg fuel unroll it init val Ha Hl Hit Hf) as (a' & val' & H1 & H2 & H3). exists a', val'. do 2 (split; [assumption|]). apply (HT _ val val' e); auto.
Qed.

Lemma loose_trust : forall groups fs z g, fs <> [] -> solved_by groups fs z -> graph_make (pose_env groups) fs = Ok g ->
  (forall cfg, 0 < lambda_initial cfg -> 1 <= lambda_factor cfg -> 0 < lambda_min cfg -> lm_quality_min cfg < 1 ->
     exists q C rho, 0 <= q < 1 /\ 0 <= C /\ 0 < rho /\ forall init val e fuel, assigns (pose_env groups) fs init val -> apart groups fs z val e -> size fs e <= rho ->
       (iteration_cap (max_iterations (lm_term cfg)) <= fuel)%nat ->
       exists a' k val', lm_solve (pose_env groups) fuel cfg cholmod_solve g init = Some (Ok a') /\ (1 <= k <= iteration_cap (max_iterations (lm_term cfg)))%nat /\
         assigns (pose_env groups) fs a' val' /\ restored groups fs z q C k val e val') /\
  (forall cfg, 0 < radius_initial cfg -> dl_quality_min cfg < 1 ->
     exists q C rho, 0 <= q < 1 /\ 0 <= C /\ 0 < rho /\ forall init val e fuel, assigns (pose_env groups) fs init val -> apart groups fs z val e -> size fs e <= rho ->
       (iteration_cap (max_iterations (dl_term cfg)) <= fuel)%nat ->
       exists a' k val', dl_solve (pose_env groups) fuel cfg cholmod_solve g init = Some (Ok a') /\ (1 <= k <= iteration_cap (max_iterations (dl_term cfg)))%nat /\
         assigns (pose_env groups) fs a' val' /\ restored groups fs z q C k val e val').
Proof.
  intros groups fs z g Hne SB Eg. destruct (parts_exist groups fs (fun f Hf => proj1 (sb_factors _ _ _ SB f Hf))) as (rt & HP). pose proof (basin_posed groups fs z Hne SB) as WP. split.
  - intros cfg H1 H2 H3 H4. destruct (loose_lm groups fs z SB rt HP cfg H1 H2 H3 H4) as (q & C & rho & Hq & HC & Hrho & HT). exists q, C, rho. do 3 (split; [assumption|]). intros init val e fuel Ha Ho Hs Hf.
    destruct (lm_solves (pose_env groups) fs g WP Eg cfg fuel init val Ha Hf H1 ltac:(lra) H3) as (a' & k & b' & G1 & G2 & G3 & G4). exists a', k, (b_val b'). split; [exact G1|]. split; [exact G2|]. split; [exact G4|]. apply (HT k (mkBook val val (lambda_initial cfg)) b' e Logic.eq_refl Ho Hs G3).
  - intros cfg H1 H2. destruct (loose_dl groups fs z SB rt HP cfg H1 H2) as (q & C & rho & Hq & HC & Hrho & HT). exists q, C, rho. do 3 (split; [assumption|]). intros init val e fuel Ha Ho Hs Hf.
    destruct (dl_solves (pose_env groups) fs g WP Eg cfg fuel init val Ha Hf H1) as (a' & k & b' & G1 & G2 & G3 & G4). exists a', k, (b_val b'). split; [exact G1|]. split; [exact G2|]. split; [exact G4|]. apply (HT k (mkBook val val (radius_initial cfg)) b' e Logic.eq_refl Ho Hs G3).
Qed.

(* any accuracy, with enough iterations of the fixed-iteration solver *)
Lemma loose_limit : forall groups fs z g, fs <> [] -> solved_by groups fs z -> graph_make (pose_env groups) fs = Ok g ->
  exists rho, 0 < rho /\ forall eps, 0 < eps -> exists least, (1 <= least)%Z /\ forall it unroll init val e, (least <= it)%Z ->
    assigns (pose_env groups) fs init val -> same_layout (as_layout init) (g_layout g) -> apart groups fs z val e -> size fs e <= rho ->
    exists a' val' e', fixed_solve (pose_env groups) (Z.to_nat it) unroll it cholmod_solve g init = Some (Ok a') /\ assigns (pose_env groups) fs a' val' /\ apart groups fs z val' e' /\ size fs e' < eps.
Proof.
  intros groups fs z g Hne SB Eg. destruct (loose_solves groups fs z g Hne SB Eg) as (q & C & rho & Hq & HC & Hrho & HT). exists rho. split; auto. intros eps He. assert (HCr : 0 <= C * rho) by (apply Rmult_le_pos; lra).
  destruct (pow_lt_1_zero q) with (y := eps / (C * rho + 1)) as (N & HN); [rewrite Rabs_pos_eq; lra | apply Rdiv_lt_0_compat; lra|].
  exists (Z.of_nat (S N)). split; [lia|]. intros it unroll init val e Hit Ha Hl Ho Hs. destruct (HT init val e (Z.to_nat it) Ha Ho Hs) as (_ & HF).
  destruct (HF unroll it Hl ltac:(lia) (le_n _)) as (a' & val' & H1 & H2 & _ & e' & H3 & H4). exists a', val', e'. do 3 (split; auto). eapply Rle_lt_trans; [exact H4|].
  assert (Hp : 0 <= q ^ Z.to_nat it) by (apply pow_le; lra). specialize (HN (Z.to_nat it) ltac:(lia)). rewrite Rabs_pos_eq in HN by auto. pose proof (size_pos fs e) as P.
  apply Rle_lt_trans with (q ^ Z.to_nat it * (C * rho + 1)).
  - replace (C * q ^ Z.to_nat it * size fs e) with (q ^ Z.to_nat it * (C * size fs e)) by ring. apply Rmult_le_compat_l; auto. assert (C * size fs e <= C * rho) by (apply Rmult_le_compat_l; auto). lra.
  - apply (Rmult_lt_compat_r (C * rho + 1)) in HN; [|lra]. replace (eps / (C * rho + 1) * (C * rho + 1)) with eps in HN by (field; lra). auto.
Qed.


(* what an unseen motion leaves alone: the cost, the poses tied to a prior, the relative poses within a connected part *)
Lemma loose_shape : forall groups fs z val val', solved_by groups fs z -> alike groups fs val val' ->
  (forall v, In v (mentioned fs) -> value_ok (e_cls (pose_env groups) (v_ty v)) (val v)) ->
  cost_at (pose_env groups) fs val' = cost_at (pose_env groups) fs val /\
  (forall v, In v (mentioned fs) -> tied fs v -> val' v = val v) /\
  forall u v, In u (mentioned fs) -> joined fs u v -> In v (mentioned fs) -> let raw := groups (v_ty u) in
    lg_mul raw (lg_inv raw (params (val' u))) (params (val' v)) = lg_mul raw (lg_inv raw (params (val u))) (params (val v)).
Proof.
  intros groups fs z val val' SB (fr & Hu & Hfr) Lv. split; [apply (carried_cost groups fs z SB fr Hu); auto|].
  assert (Along : forall r u, joined fs r u -> fr u = fr r). { induction 1 as [|va vb Tab n f Hb Hf _ IH|va vb Tab n f Hb Hf _ IH]; auto; pose proof (um_between _ _ _ Hu va vb Tab n f Hb Hf) as Eq; congruence. }
  split.
  - intros v Hv Ht. assert (E1 : fr v = lg_one (groups (v_ty v))).
    { clear -Ht Hu. induction Ht as [v mu n Hf|va vb Tab n f Hb Hf Ht IH|va vb Tab n f Hb Hf Ht IH]; [apply (um_prior _ _ _ Hu v mu n Hf)| |]; pose proof (um_between _ _ _ Hu va vb Tab n f Hb Hf) as Eq; destruct (between_inv _ _ _ _ _ Hb) as (Hty & _); [rewrite <- Eq, <- Hty; exact IH | rewrite Eq, Hty; exact IH]. }
    rewrite (Hfr v Hv), E1. destruct (proj2 (pose_value_ok groups (v_ty v) (val v)) (Lv v Hv)) as (p & Ep & Lp). rewrite Ep, params_value. f_equal. apply one_left; [apply (kn groups fs z SB); auto | exact Lp].
  - intros u v Hu' J Hv raw. pose proof (joined_type fs u v J) as Ty. rewrite (Hfr u Hu'), (Hfr v Hv), !params_value, Ty, (Along u v J). apply raw_cancel; [apply (sb_groups _ _ _ SB); auto | |]; apply (um_unit _ _ _ Hu u Hu').
Qed.

(* four poses in space: one held by a prior, a second measured from it, and two more only measured from each other *)
Definition sc : var := mkVar 2%nat 2%nat.
Definition sd : var := mkVar 3%nat 2%nat.
Definition ex_parted : list (factor R) := [prior_make sa (group_value 2%nat [1; 0; 0; 0; 0; 0; 0]) dg6; mkFactor 1%nat [sa; sb] hb6 [offset]; mkFactor 1%nat [sc; sd] dg6 [offset]; mkFactor 1%nat [sd; sc] hb6 [backset]].
Definition ex_spread (v : var) : pytree R := if eqb v sa || eqb v sc then group_value 2%nat [1; 0; 0; 0; 0; 0; 0] else offset.
Lemma ex_loose : solved_by ex_groups ex_parted ex_spread /\ ex_parted <> [] /\ tied ex_parted sb /\ joined ex_parted sc sd /\
  (exists g, graph_make (pose_env ex_groups) ex_parted = Ok g) /\
  forall e, tangent (pose_env ex_groups) ex_parted e -> exists init val, apart ex_groups ex_parted ex_spread val e /\ assigns (pose_env ex_groups) ex_parted init val /\
    forall g, graph_make (pose_env ex_groups) ex_parted = Ok g -> same_layout (as_layout init) (g_layout g).
Proof.
  assert (Hf : forall f, In f ex_parted -> pose_factor ex_groups f).
  { intros f [<-|[<-|[<-|[<-|[]]]]].
    - constructor; [eexists; split; reflexivity | split; [reflexivity | exists 6%nat; reflexivity] | reflexivity].
    - eapply (pf_between ex_groups sa sb offset hb6); try reflexivity; [exists [3/5; 0; 0; 4/5; 1; 2; 3]; split; reflexivity|]. split; [split; [reflexivity | exists 6%nat; reflexivity]|]. split; reflexivity.
    - eapply (pf_between ex_groups sc sd offset dg6); try reflexivity; [exists [3/5; 0; 0; 4/5; 1; 2; 3]; split; reflexivity|]. split; [reflexivity | exists 6%nat; reflexivity].
    - eapply (pf_between ex_groups sd sc backset hb6); try reflexivity; [eexists; split; reflexivity|]. split; [split; [reflexivity | exists 6%nat; reflexivity]|]. split; reflexivity. }
  assert (Hn : informative dg6) by (repeat (constructor; [lra|]); constructor).
  assert (Hh : informative hb6) by (split; [auto|]; exists (1/2); split; [reflexivity|lra]).
  assert (SB : solved_by ex_groups ex_parted ex_spread).
  { constructor.
    - intros f Hin. split; [auto|]. destruct Hin as [<-|[<-|[<-|[<-|[]]]]].
      + split; [exact Hn|]. split; [intros v x [<-|[]] [<-|[]]; (apply se3_unit; [reflexivity|]); unfold norm4; cbn; lra|]. left. reflexivity.
      + split; [exact Hh|]. split; [intros v x [<-|[<-|[]]] [<-|[]]; (apply se3_unit; [reflexivity|]); unfold norm4; cbn; lra|].
        left. cbn. unfold se3_mul. cbn. lists; rn; try ring.
      + split; [exact Hn|]. split; [intros v x [<-|[<-|[]]] [<-|[]]; (apply se3_unit; [reflexivity|]); unfold norm4; cbn; lra|].
        left. cbn. unfold se3_mul. cbn. lists; rn; try ring.
      + split; [exact Hh|]. split; [intros v x [<-|[<-|[]]] [<-|[]]; (apply se3_unit; [reflexivity|]); unfold norm4; cbn; lra|].
        left. cbn. unfold se3_mul. cbn. lists; rn; try lra.
    - intros v [<-|[<-|[<-|[<-|[]]]]]; right; constructor.
    - intros v [<-|[<-|[<-|[<-|[]]]]]; (split; [|apply se3_unit; [reflexivity|]; unfold norm4; cbn; lra]); eexists; split; reflexivity. }
  split; auto. split; [discriminate|]. split.
  { eapply tied_next with (va := sa) (Tab := offset) (n := hb6); [reflexivity | right; left; reflexivity|]. eapply tied_prior. left. reflexivity. }
  split; [eapply joined_next with (va := sc) (Tab := offset) (n := dg6); [reflexivity | right; right; left; reflexivity | apply joined_root]|].
  split; [eexists; reflexivity|].
  intros e Te. set (X := fun v => lie_retract (ex_groups 2%nat) (params (ex_spread v)) (e v)). assert (LX : forall v, length (X v) = 7%nat) by reflexivity.
  exists (mkAssign (X sa ++ X sb ++ X sc ++ X sd) (make_layout (lie_class ex_groups) [sa; sb; sc; sd] false)), (fun v => group_value (v_ty v) (X v)). split; [|split].
  - split; auto. exists (fun v => group_value (v_ty v) (X v)). assert (MV : moved (pose_env ex_groups) ex_parted ex_spread e (fun v => group_value (v_ty v) (X v))) by (intros v [<-|[<-|[<-|[<-|[]]]]]; reflexivity).
    split; [exact MV|]. apply (carried_still ex_groups ex_parted ex_spread SB). apply (legal_of ex_groups ex_parted ex_spread SB e); auto.
  - exists [sa; sb; sc; sd]. split; [split; [repeat constructor; simpl; intuition discriminate | split; [reflexivity|cbn [as_storage]; rewrite !app_length, !LX; reflexivity]]|]. split; [intros v; cbn; tauto|].
    pose proof (LX sa) as L1. pose proof (LX sb) as L2. pose proof (LX sc) as L3. pose proof (LX sd) as L4. clearbody X. clear LX.
    intros v [<-|[<-|[<-|[<-|[]]]]]; cbn [v_ty sa sb sc sd]; generalize dependent (X sa); generalize dependent (X sb); generalize dependent (X sc); generalize dependent (X sd); intros x4 L4 x3 L3 x2 L2 x1 L1; rip x1; rip x2; rip x3; rip x4; reflexivity.
  - intros g Eg. injection Eg as <-. repeat (split; [reflexivity|]); reflexivity.
Qed.
