(* Bundled statements and a concrete instance: pose graphs without absolute measurements. *)
From Coq Require Import String List Arith Bool Lia Reals Lra ZArith.
From Verif Require Import Num NumR Py Arr MLayout MAssign MNoise MSparse MFactor MGraph MLinear MSolver MLie MPose SpecLayout SpecTree SpecAssign SpecNoise SpecGraph SpecLie SpecPose SpecZero SpecSpatial SpecTwin SpecInv SpecOrder SpecSolver SpecLocal SpecFrame SpecBook SpecNear SpecBasin SpecGauge Ex ExG ExS.
From Verif Require Import PBase PVec PLie PPose PFrame PLin PLinDl PFree PJacZero PTwin2 PZero PSpatial PSpatial2 PSpatial3 PSpatial4 PNear PDeriv PBook PBasin6 PBasin7 PExBook PExInv PExZero PBasin4 PBasin5 PBasin8 PBasin9 PBasin10 PBasin11 PBasin12 PExBasin PGauge PGauge2 PGauge3 PGauge4.
Import ListNotations.
Local Open Scope R_scope.
Notation moved := SpecBook.moved.

Lemma gauge_solves : forall groups fs z v0 g, solved_by groups fs z -> (forall f, In f fs -> f_cls f = 1%nat) -> In v0 (mentioned fs) -> (forall v, In v (mentioned fs) -> joined fs v0 v) -> graph_make (pose_env groups) fs = Ok g ->
  exists q C rho, 0 <= q < 1 /\ 0 <= C /\ 0 < rho /\ forall init val e fuel, assigns (pose_env groups) fs init val -> off_by groups fs z val e -> size fs e <= rho ->
    (forall cfg, (iteration_cap (max_iterations cfg) <= fuel)%nat ->
       exists a' k val', gn_solve (pose_env groups) fuel cfg cholmod_solve g init = Some (Ok a') /\ (1 <= k <= iteration_cap (max_iterations cfg))%nat /\
         assigns (pose_env groups) fs a' val' /\ regained groups fs z q C k val e val') /\
    (forall unroll it, same_layout (as_layout init) (g_layout g) -> (1 <= it)%Z -> (Z.to_nat it <= fuel)%nat ->
       exists a' val', fixed_solve (pose_env groups) fuel unroll it cholmod_solve g init = Some (Ok a') /\
         assigns (pose_env groups) fs a' val' /\ regained groups fs z q C (Z.to_nat it) val e val').
Proof.
  intros groups fs z v0 g SB Rel Hv0 Hj Eg. assert (Hne : fs <> []) by (intros ->; destruct Hv0). pose proof (basin_posed groups fs z Hne SB) as WP. destruct (gauge_gn groups fs z SB Rel v0 Hv0 Hj) as (q & C & rho & Hq & HC & Hrho & HT).
  exists q, C, rho. do 3 (split; [assumption|]). intros init val e fuel Ha Ho Hs. split.
  - intros cfg Hc. destruct (gn_solves (pose_env groups) fs g WP Eg cfg fuel init val Ha Hc) as (a' & k & val' & H1 & H2 & H3 & H4). exists a', k, val'. do 3 (split; [assumption|]). apply (HT k val val' e); auto.
  - intros unroll it Hl Hit Hf. destruct (fixed_solves (pose_env groups) fs g WP Eg fuel unroll it init val Ha Hl Hit Hf) as (a' & val' & H1 & H2 & H3). exists a', val'. do 2 (split; [assumption|]). apply (HT _ val val' e); auto.
Qed.

Lemma gauge_trust : forall groups fs z v0 g, solved_by groups fs z -> (forall f, In f fs -> f_cls f = 1%nat) -> In v0 (mentioned fs) -> (forall v, In v (mentioned fs) -> joined fs v0 v) -> graph_make (pose_env groups) fs = Ok g ->
  (forall cfg, 0 < lambda_initial cfg -> 1 <= lambda_factor cfg -> 0 < lambda_min cfg -> lm_quality_min cfg < 1 ->
     exists q C rho, 0 <= q < 1 /\ 0 <= C /\ 0 < rho /\ forall init val e fuel, assigns (pose_env groups) fs init val -> off_by groups fs z val e -> size fs e <= rho ->
       (iteration_cap (max_iterations (lm_term cfg)) <= fuel)%nat ->
       exists a' k val', lm_solve (pose_env groups) fuel cfg cholmod_solve g init = Some (Ok a') /\ (1 <= k <= iteration_cap (max_iterations (lm_term cfg)))%nat /\
         assigns (pose_env groups) fs a' val' /\ regained groups fs z q C k val e val') /\
  (forall cfg, 0 < radius_initial cfg -> dl_quality_min cfg < 1 ->
     exists q C rho, 0 <= q < 1 /\ 0 <= C /\ 0 < rho /\ forall init val e fuel, assigns (pose_env groups) fs init val -> off_by groups fs z val e -> size fs e <= rho ->
       (iteration_cap (max_iterations (dl_term cfg)) <= fuel)%nat ->
       exists a' k val', dl_solve (pose_env groups) fuel cfg cholmod_solve g init = Some (Ok a') /\ (1 <= k <= iteration_cap (max_iterations (dl_term cfg)))%nat /\
         assigns (pose_env groups) fs a' val' /\ regained groups fs z q C k val e val').
Proof.
  intros groups fs z v0 g SB Rel Hv0 Hj Eg. assert (Hne : fs <> []) by (intros ->; destruct Hv0). pose proof (basin_posed groups fs z Hne SB) as WP. split.
  - intros cfg H1 H2 H3 H4. destruct (gauge_lm groups fs z SB Rel v0 Hv0 Hj cfg H1 H2 H3 H4) as (q & C & rho & Hq & HC & Hrho & HT). exists q, C, rho. do 3 (split; [assumption|]). intros init val e fuel Ha Ho Hs Hf.
    destruct (lm_solves (pose_env groups) fs g WP Eg cfg fuel init val Ha Hf H1 ltac:(lra) H3) as (a' & k & b' & G1 & G2 & G3 & G4). exists a', k, (b_val b'). split; [exact G1|]. split; [exact G2|]. split; [exact G4|]. apply (HT k (mkBook val val (lambda_initial cfg)) b' e Logic.eq_refl Ho Hs G3).
  - intros cfg H1 H2. destruct (gauge_dl groups fs z SB Rel v0 Hv0 Hj cfg H1 H2) as (q & C & rho & Hq & HC & Hrho & HT). exists q, C, rho. do 3 (split; [assumption|]). intros init val e fuel Ha Ho Hs Hf.
    destruct (dl_solves (pose_env groups) fs g WP Eg cfg fuel init val Ha Hf H1) as (a' & k & b' & G1 & G2 & G3 & G4). exists a', k, (b_val b'). split; [exact G1|]. split; [exact G2|]. split; [exact G4|]. apply (HT k (mkBook val val (radius_initial cfg)) b' e Logic.eq_refl Ho Hs G3).
Qed.

(* any accuracy, with enough iterations of the fixed-iteration solver *)
Lemma gauge_limit : forall groups fs z v0 g, solved_by groups fs z -> (forall f, In f fs -> f_cls f = 1%nat) -> In v0 (mentioned fs) -> (forall v, In v (mentioned fs) -> joined fs v0 v) -> graph_make (pose_env groups) fs = Ok g ->
  exists rho, 0 < rho /\ forall eps, 0 < eps -> exists least, (1 <= least)%Z /\ forall it unroll init val e, (least <= it)%Z ->
    assigns (pose_env groups) fs init val -> same_layout (as_layout init) (g_layout g) -> off_by groups fs z val e -> size fs e <= rho ->
    exists a' val' e', fixed_solve (pose_env groups) (Z.to_nat it) unroll it cholmod_solve g init = Some (Ok a') /\ assigns (pose_env groups) fs a' val' /\ off_by groups fs z val' e' /\ size fs e' < eps.
Proof.
  intros groups fs z v0 g SB Rel Hv0 Hj Eg. destruct (gauge_solves groups fs z v0 g SB Rel Hv0 Hj Eg) as (q & C & rho & Hq & HC & Hrho & HT). exists rho. split; auto. intros eps He. assert (HCr : 0 <= C * rho) by (apply Rmult_le_pos; lra).
  destruct (pow_lt_1_zero q) with (y := eps / (C * rho + 1)) as (N & HN); [rewrite Rabs_pos_eq; lra | apply Rdiv_lt_0_compat; lra|].
  exists (Z.of_nat (S N)). split; [lia|]. intros it unroll init val e Hit Ha Hl Ho Hs. destruct (HT init val e (Z.to_nat it) Ha Ho Hs) as (_ & HF).
  destruct (HF unroll it Hl ltac:(lia) (le_n _)) as (a' & val' & H1 & H2 & _ & e' & H3 & H4). exists a', val', e'. do 3 (split; auto). eapply Rle_lt_trans; [exact H4|].
  assert (Hp : 0 <= q ^ Z.to_nat it) by (apply pow_le; lra). specialize (HN (Z.to_nat it) ltac:(lia)). rewrite Rabs_pos_eq in HN by auto. pose proof (size_pos fs e) as P.
  apply Rle_lt_trans with (q ^ Z.to_nat it * (C * rho + 1)).
  - replace (C * q ^ Z.to_nat it * size fs e) with (q ^ Z.to_nat it * (C * size fs e)) by ring. apply Rmult_le_compat_l; auto. assert (C * size fs e <= C * rho) by (apply Rmult_le_compat_l; auto). lra.
  - apply (Rmult_lt_compat_r (C * rho + 1)) in HN; [|lra]. replace (eps / (C * rho + 1) * (C * rho + 1)) with eps in HN by (field; lra). auto.
Qed.

(* a common motion changes no relative pose and no cost *)
Lemma gauge_shape : forall groups fs z val val', solved_by groups fs z -> (forall f, In f fs -> f_cls f = 1%nat) -> same_shape_as groups fs val val' ->
  (forall v, In v (mentioned fs) -> value_ok (e_cls (pose_env groups) (v_ty v)) (val v)) ->
  cost_at (pose_env groups) fs val' = cost_at (pose_env groups) fs val /\
  forall u v, In u (mentioned fs) -> In v (mentioned fs) -> v_ty u = v_ty v -> let raw := groups (v_ty u) in
    lg_mul raw (lg_inv raw (params (val' u))) (params (val' v)) = lg_mul raw (lg_inv raw (params (val u))) (params (val v)).
Proof.
  intros groups fs z val val' SB Rel (fr & Hu & Hfr) Lv. split; [apply (framed_cost groups fs z SB Rel fr Hu); auto|].
  intros u v Hi Hi' Ht raw. rewrite (Hfr u Hi), (Hfr v Hi'), <- Ht. apply cancel; auto. apply (sb_groups _ _ _ SB); auto.
Qed.

(* the theorems of C87 never apply here *)
Lemma gauge_loose : forall groups fs z v0, solved_by groups fs z -> (forall f, In f fs -> f_cls f = 1%nat) -> In v0 (mentioned fs) -> (forall v, In v (mentioned fs) -> joined fs v0 v) -> ~ rigid groups fs z.
Proof.
  intros groups fs z v0 SB Rel Hv0 Hj HR. set (raw := groups (v_ty v0)). assert (Hk : PZero.known raw) by (apply (kn groups fs z SB); auto). assert (Ty : forall v, In v (mentioned fs) -> v_ty v = v_ty v0) by (intros v Hv; apply (one_type fs v0); auto).
  set (dir := repeat 1 (lg_dim raw)). assert (Ld : length dir = lg_dim raw) by apply repeat_length.
  assert (Nz : dir <> vzero (lg_dim raw)). { unfold dir. assert (Hp : (1 <= lg_dim raw)%nat) by (destruct Hk as [[]|[]]; cbn; lia). destruct (lg_dim raw) as [|j]; [lia|]. cbn. intros H. injection H as H _. lra. }
  assert (Gz : forall v, In v (mentioned fs) -> sized_pose raw (params (z v)) /\ unit_pose raw (params (z v))).
  { intros v Hv. pose proof (sb_values _ _ _ SB v Hv) as ((p0 & Ep & Lp) & Uv). pose proof (Ty v Hv) as Tv. rewrite Tv in Uv, Lp. split; auto. unfold sized_pose. rewrite Ep, params_value. exact Lp. }
  set (nu := fun v => mvec (lg_adj raw (lg_mul raw (lg_inv raw (params (z v))) (params (z v0)))) dir).
  assert (HU : unseen_at (pose_env groups) fs z nu).
  { split; [intros v Hv; change (length (nu v) = lg_dim (groups (v_ty v))); rewrite (Ty v Hv); apply k_adj_length; auto|]. intros f Hf. destruct (sb_factors _ _ _ SB f Hf) as (Pf & _). pose proof (Rel f Hf) as Hc.
    destruct Pf as [v mu n Hm Hn Hd|va vb Tab n h Hb Hm Hn Hd]; [discriminate Hc|]. pose proof (between_inv _ _ _ _ _ Hb) as (Hty & Eh). subst h.
    assert (Ha : In va (mentioned fs)) by (apply (men fs _ va Hf); cbn; auto). assert (Hb' : In vb (mentioned fs)) by (apply (men fs _ vb Hf); cbn; auto).
    unfold residual_dim. cbn [f_noise]. rewrite Hd. assert (Er : groups (v_ty va) = raw) by (rewrite (Ty va Ha); auto).
    change (vadd (mvec (lg_adj (groups (v_ty va)) (lg_inv (groups (v_ty va)) (lg_mul (groups (v_ty va)) (lg_inv (groups (v_ty va)) (params (z va))) (params (z vb))))) (nu va)) (vadd (mvec (neg_eye (lg_dim (groups (v_ty va)))) (nu vb)) (vzero (lg_dim (groups (v_ty va))))) = vzero (lg_dim (groups (v_ty va)))).
    rewrite Er. destruct (Gz va Ha) as (La & Ua). destruct (Gz vb Hb') as (Lb & Ub). destruct (Gz v0 Hv0) as (L0 & U0). unfold nu at 1.
    rewrite <- k_adj_mul; try (split; auto); auto; try (apply sized_inv; auto); try (apply sized_mul; auto); try (apply unit_inv; auto; apply unit_mul; auto; apply unit_inv; auto); try (apply unit_mul; auto; apply unit_inv; auto).
    assert (Eg : lg_mul raw (lg_inv raw (lg_mul raw (lg_inv raw (params (z va))) (params (z vb)))) (lg_mul raw (lg_inv raw (params (z va))) (params (z v0))) = lg_mul raw (lg_inv raw (params (z vb))) (params (z v0))).
    { rewrite inv_of_mul, inv_of_inv by (auto; apply unit_inv; auto). rewrite raw_assoc by auto. rewrite cancel_right; auto. }
    rewrite Eg. change (mvec (lg_adj raw (lg_mul raw (lg_inv raw (params (z vb))) (params (z v0)))) dir) with (nu vb). assert (Ln : length (nu vb) = lg_dim raw) by (apply k_adj_length; auto).
    rewrite neg_eye_mvec by auto. rewrite add_zero_r by (rewrite vneg_length; auto). rewrite add_neg. clear -Ln. revert Ln. generalize (nu vb) as x, (lg_dim raw) as j. induction x as [|a x IH]; intros [|j] L; try discriminate; [reflexivity|]. injection L as L. unfold vsub, vzero in *. cbn. f_equal; [rn; ring | apply IH; auto]. }
  specialize (HR nu HU v0 Hv0). apply Nz. fold raw in HR. unfold nu in HR. destruct (Gz v0 Hv0) as (L0 & U0). rewrite inv_l in HR by auto. rewrite adj_one_id in HR by auto. exact HR.
Qed.

(* two poses in space, each measured from the other, one measurement with a Huber loss *)
Definition backset : pytree R := group_value 2%nat [3/5; 0; 0; -4/5; -41/25; 38/25; -3].
Definition ex_floating : list (factor R) := [mkFactor 1%nat [sa; sb] hb6 [offset]; mkFactor 1%nat [sb; sa] dg6 [backset]].
Lemma ex_gauge : solved_by ex_groups ex_floating ex_placed /\ (forall f, In f ex_floating -> f_cls f = 1%nat) /\ In sa (mentioned ex_floating) /\ (forall v, In v (mentioned ex_floating) -> joined ex_floating sa v) /\
  (exists g, graph_make (pose_env ex_groups) ex_floating = Ok g) /\
  forall e, tangent (pose_env ex_groups) ex_floating e -> exists init val, off_by ex_groups ex_floating ex_placed val e /\ assigns (pose_env ex_groups) ex_floating init val /\
    forall g, graph_make (pose_env ex_groups) ex_floating = Ok g -> same_layout (as_layout init) (g_layout g).
Proof.
  assert (Hf : forall f, In f ex_floating -> pose_factor ex_groups f).
  { intros f [<-|[<-|[]]].
    - eapply (pf_between ex_groups sa sb offset hb6); try reflexivity; [exists [3/5; 0; 0; 4/5; 1; 2; 3]; split; reflexivity|]. split; [split; [reflexivity | exists 6%nat; reflexivity]|]. split; reflexivity.
    - eapply (pf_between ex_groups sb sa backset dg6); try reflexivity; [eexists; split; reflexivity|]. split; [reflexivity | exists 6%nat; reflexivity]. }
  assert (Hn : informative dg6) by (repeat (constructor; [lra|]); constructor).
  assert (SB : solved_by ex_groups ex_floating ex_placed).
  { constructor.
    - intros f Hin. split; [auto|]. destruct Hin as [<-|[<-|[]]].
      + split; [split; [auto|]; exists (1/2); split; [reflexivity|lra]|]. split; [intros v x [<-|[<-|[]]] [<-|[]]; (apply se3_unit; [reflexivity|]); unfold norm4; cbn; lra|].
        left. cbn. unfold se3_mul. cbn. lists; rn; try ring.
      + split; [auto|]. split; [intros v x [<-|[<-|[]]] [<-|[]]; (apply se3_unit; [reflexivity|]); unfold norm4; cbn; lra|].
        left. cbn. unfold se3_mul. cbn. lists; rn; try lra.
    - intros v [<-|[<-|[]]]; right; constructor.
    - intros v [<-|[<-|[]]]; (split; [|apply se3_unit; [reflexivity|]; unfold norm4; cbn; lra]); eexists; split; reflexivity. }
  split; auto. split; [intros f [<-|[<-|[]]]; reflexivity|]. split; [left; reflexivity|]. split.
  { intros v [<-|[<-|[]]]; [apply joined_root|]. eapply joined_next with (va := sa) (Tab := offset) (n := hb6); [reflexivity | left; reflexivity | apply joined_root]. }
  split; [eexists; reflexivity|].
  intros e Te. set (xa := lie_retract (ex_groups 2%nat) (params (ex_placed sa)) (e sa)). set (xb := lie_retract (ex_groups 2%nat) (params (ex_placed sb)) (e sb)).
  assert (La : length xa = 7%nat) by reflexivity. assert (Lb : length xb = 7%nat) by reflexivity.
  set (w := fun v => if eqb v sa then group_value 2%nat xa else group_value 2%nat xb).
  exists (mkAssign (xa ++ xb) (make_layout (lie_class ex_groups) [sa; sb] false)), w. split; [|split].
  - split; auto. exists w. split; [intros v [<-|[<-|[]]]; reflexivity|]. exists (fun t => lg_one (ex_groups t)). split; [intros t; split; intros []; unfold norm2, norm4; cbn; ring|].
    intros v [<-|[<-|[]]]; [change (group_value 2%nat xa = group_value 2%nat (lg_mul (ex_groups 2%nat) (lg_one (ex_groups 2%nat)) xa)) | change (group_value 2%nat xb = group_value 2%nat (lg_mul (ex_groups 2%nat) (lg_one (ex_groups 2%nat)) xb))]; f_equal; symmetry; apply one_mul; auto; constructor.
  - exists [sa; sb]. split; [split; [repeat constructor; simpl; intuition discriminate | split; [reflexivity|cbn [as_storage]; rewrite app_length, La, Lb; reflexivity]]|]. split; [intros v; reflexivity|].
    intros v [<-|[<-|[]]]; unfold w; clearbody xa xb; clear -La Lb; rip xa; rip xb; reflexivity.
  - intros g Eg. injection Eg as <-. repeat (split; [reflexivity|]); reflexivity.
Qed.
