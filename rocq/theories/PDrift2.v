(* Proofs: the solvers on a consistent pose graph do not drift along motions no measurement can see. *)
From Coq Require Import List Arith Bool Lia Reals Lra Psatz.
From Verif Require Import Num NumR Py Arr MLayout MAssign MNoise MSparse MFactor MGraph MLinear MSolver MLie MPose SpecLayout SpecTree SpecAssign SpecNoise SpecGraph SpecLie SpecPose SpecZero SpecSpatial SpecTwin SpecInv SpecOrder SpecSolver SpecSym SpecFrame SpecBook SpecNear SpecBasin SpecGauge PGraph PVec PLie PPose PFrame PExSym PSolverR PNoise PDescent PLocal PLin PLinDl POrder PDeriv PTwin2 PFree PZero PJacZero PNear PSpatial PSpatial2 PSpatial3 PSpatial4 PBook PBasin4 PBasin5 PBasin6 PBasin7 PBasin8 PBasin9 PBasin10 PBasin11 PBasin12 PGauge PGauge2 PGauge3 SpecLoose PGauge4 PLoose PLoose2 PLoose3 SpecDrift PDrift.
Import ListNotations.
Local Open Scope R_scope.
Notation moved := SpecBook.moved.

Lemma turns_join {A} (step : A -> A -> Prop) j k a b c : turns step j a b -> turns step k b c -> turns step (j + k) a c.
Proof. induction 1; auto. intros H'. cbn. econstructor; eauto. Qed.
Lemma turns_cut {A} (step : A -> A -> Prop) j : forall k a c, turns step (j + k) a c -> exists b, turns step j a b /\ turns step k b c.
Proof.
  induction j as [|j IH]; intros k a c H; [exists a; split; [constructor | exact H]|]. inversion H as [|n x y z0 H1 H2]; subst. destruct (IH k y c H2) as (b & B1 & B2). exists b. split; auto. econstructor; eauto.
Qed.
Lemma within_more fs d d' a b : d <= d' -> within fs d a b -> within fs d' a b.
Proof. intros H W v Hv i. eapply Rle_trans; [apply W; auto | auto]. Qed.
Lemma within_refl fs d a : 0 <= d -> within fs d a a.
Proof. intros H v Hv i. rewrite Rminus_diag_eq, Rabs_R0; auto. Qed.
Lemma within_then fs d d' a b c : within fs d a b -> within fs d' b c -> within fs (d + d') a c.
Proof.
  intros H1 H2 v Hv i. specialize (H1 v Hv i). specialize (H2 v Hv i). replace (nth i (params (c v)) 0 - nth i (params (a v)) 0) with ((nth i (params (b v)) 0 - nth i (params (a v)) 0) + (nth i (params (c v)) 0 - nth i (params (b v)) 0)) by ring. eapply Rle_trans; [apply Rabs_triang | lra].
Qed.
Lemma within_sym fs d a b : within fs d a b -> within fs d b a.
Proof. intros H v Hv i. rewrite Rabs_minus_sym. auto. Qed.
Lemma within_ext fs d a b b' : (forall v, In v (mentioned fs) -> b' v = b v) -> within fs d a b -> within fs d a b'.
Proof. intros H W v Hv i. rewrite (H v Hv). auto. Qed.

(* steps that shrink geometrically add up to a bounded distance *)
Lemma creep {A} fs (step : A -> A -> Prop) (val : A -> var -> pytree R) (I : A -> Prop) (phi : A -> R) s : 0 <= s < 1 -> (forall a, I a -> 0 <= phi a) ->
  (forall a b, I a -> step a b -> I b /\ phi b <= s * phi a /\ within fs (phi a) (val a) (val b)) ->
  forall k a c, I a -> turns step k a c -> I c /\ phi c <= s ^ k * phi a /\ within fs (phi a / (1 - s)) (val a) (val c).
Proof.
  intros Hs Hp HS k. induction k as [|k IH]; intros a c Ia H; inversion H as [|n x y z0 H1 H2]; subst.
  - split; auto. cbn [pow]. split; [lra|]. apply within_refl. apply Rmult_le_pos; auto. apply Rlt_le, Rinv_0_lt_compat. lra.
  - destruct (HS a y Ia H1) as (Iy & P1 & W1). destruct (IH y c Iy H2) as (Ic & P2 & W2). split; auto. split.
    + cbn [pow]. eapply Rle_trans; [exact P2|]. replace (s * s ^ k * phi a) with (s ^ k * (s * phi a)) by ring. apply Rmult_le_compat_l; auto. apply pow_le. lra.
    + eapply within_more; [|eapply within_then; [exact W1 | exact W2]]. apply (Rmult_le_reg_r (1 - s)); [lra|]. replace ((phi a + phi y / (1 - s)) * (1 - s)) with (phi a * (1 - s) + phi y) by (field; lra). replace (phi a / (1 - s) * (1 - s)) with (phi a) by (field; lra). lra.
Qed.


Section Graph.
Variable groups : vty -> lie_ops R (list R).
Variable fs : list (factor R).
Variable z : var -> pytree R.
Hypothesis SB : solved_by groups fs z.
Let E := pose_env groups.
Notation field := (var -> list R).

(* legal values that are unit poses *)
Definition proper (val : var -> pytree R) : Prop := forall v, In v (mentioned fs) -> exists p, val v = group_value (v_ty v) p /\ sized_pose (groups (v_ty v)) p /\ unit_pose (groups (v_ty v)) p.
Lemma proper_z : proper z.
Proof. intros v Hv. destruct (sb_values _ _ _ SB v Hv) as ((p & Ep & Lp) & Hu). exists p. rewrite Ep, params_value in Hu. auto. Qed.
Lemma proper_moved val xi p : proper val -> moved E fs val xi p -> proper p.
Proof.
  intros G Hm v Hv. destruct (G v Hv) as (x & Ex & Lx & Ux). specialize (Hm v Hv). cbn in Hm. injection Hm as Hm. rewrite Ex, params_value in Hm. exists (lie_retract (groups (v_ty v)) x (xi v)). split; auto.
  pose proof (kn groups fs z SB v Hv) as Hk. split; [apply retract_dim; auto|]. apply unit_mul; auto. apply k_unit_exp; auto.
Qed.
Lemma proper_carried fr w val : unseen_motion groups fs fr -> proper w -> carried groups fs fr w val -> proper val.
Proof.
  intros Hu G Hf v Hv. destruct (G v Hv) as (x & Ex & Lx & Ux). exists (lg_mul (groups (v_ty v)) (fr v) x). rewrite (Hf v Hv), Ex, params_value. split; auto. pose proof (kn groups fs z SB v Hv) as Hk. split; [apply raw_mul_length; auto|]. apply unit_mul; auto. apply (um_unit _ _ _ Hu); auto.
Qed.
Lemma proper_apart val e : apart groups fs z val e -> proper val.
Proof. intros (_ & w & Hw & fr & Hu & Hf). apply (proper_carried fr w); auto. apply (proper_moved z e); auto. apply proper_z. Qed.

Lemma step_within : exists K d, 0 <= K /\ 0 < d /\ forall val xi p, proper val -> size fs xi <= d -> moved E fs val xi p -> within fs (K * size fs xi) val p.
Proof.
  destruct (poses_step groups (mentioned fs) (kn groups fs z SB)) as (K & d & HK & Hd & H). exists K, d. split; auto. split; auto. intros val xi p G Hs Hm v Hv i.
  destruct (G v Hv) as (x & Ex & Lx & Ux). specialize (Hm v Hv). cbn in Hm. injection Hm as Hm. rewrite <- Hm, Ex, !params_value. pose proof (size_part fs xi v Hv) as P1. pose proof (kn groups fs z SB v Hv) as Hk.
  destruct (lt_dec i (length (lg_one (groups (v_ty v))))) as [Hi|Hi].
  - eapply Rle_trans; [apply H; auto; lra|]. apply Rmult_le_compat_l; auto.
  - rewrite (nth_overflow x) by (rewrite Lx; lia). rewrite nth_overflow by (rewrite retract_dim by auto; lia). rewrite Rminus_0_r, Rabs_R0. apply Rmult_le_pos; auto. apply size_pos.
Qed.

(* a displaced, moved solution is close to a moved solution *)
Lemma solution_within : exists K d, 0 <= K /\ 0 < d /\ forall val e, apart groups fs z val e -> size fs e <= d -> exists w, alike groups fs z w /\ within fs (K * size fs e) val w.
Proof.
  destruct step_within as (K & d & HK & Hd & H). exists K, d. split; auto. split; auto. intros val e (Te & w0 & Hw & fr & Hu & Hf) Hs.
  set (w := fun v => group_value (v_ty v) (lg_mul (groups (v_ty v)) (fr v) (params (z v)))). exists w. assert (Hc : carried groups fs fr z w) by (intros v Hv; reflexivity). split; [exists fr; auto|]. apply within_sym. apply H; auto; [apply (proper_carried fr z); auto; apply proper_z|].
  intros v Hv. rewrite (Hf v Hv). specialize (Hw v Hv). cbn in Hw. injection Hw as Hw. rewrite <- Hw. change (Ok (group_value (v_ty v) (lie_retract (groups (v_ty v)) (params (w v)) (e v))) = Ok (group_value (v_ty v) (lg_mul (groups (v_ty v)) (fr v) (params (group_value (v_ty v) (lie_retract (groups (v_ty v)) (params (z v)) (e v))))))). unfold w. rewrite !params_value. unfold lie_retract, rplus. rewrite raw_assoc by (apply (sb_groups _ _ _ SB); auto). reflexivity.
Qed.

Variable rt : var -> option var.
Hypothesis HPa : parts fs rt.
Notation fixes e := (rooted groups fs rt e).
Notation lst := (lst groups fs z rt).

Definition drifts {A} (step : A -> A -> Prop) (val : A -> var -> pytree R) (start : A -> Prop) : Prop :=
  exists q C rho, 0 <= q < 1 /\ 0 <= C /\ 0 < rho /\ forall j a b e, start a -> apart groups fs z (val a) e -> size fs e <= rho -> turns step j a b ->
    (forall k c, turns step k b c -> within fs (C * q ^ j * size fs e) (val b) (val c)) /\ exists w, alike groups fs z w /\ within fs (C * q ^ j * size fs e) (val b) w.

Lemma drift_runs {A} (step : A -> A -> Prop) (val : A -> var -> pytree R) (start : A -> Prop) m M d Cs ds q rho D (I : A -> field -> Prop) : 0 < m -> 0 <= M -> 0 < d -> 0 <= Cs -> 0 < ds -> 0 <= q < 1 -> 0 < rho -> rho <= d -> 0 <= D ->
  (forall val e, apart groups fs z val e -> fixes e -> size fs e <= d -> m * size fs e * (m * size fs e) <= cost_at E fs val <= M * size fs e * (M * size fs e)) ->
  (forall val e, apart groups fs z val e -> size fs e <= ds -> exists e', apart groups fs z val e' /\ fixes e' /\ size fs e' <= Cs * size fs e) ->
  (forall a e, start a -> I a e) ->
  (forall a e b, lst m rho (val a) e -> I a e -> step a b -> cost_at E fs (val b) <= q * cost_at E fs (val a) /\ within fs (D * size fs e) (val a) (val b) /\ exists e', lst m rho (val b) e' /\ I b e') ->
  drifts step val start.
Proof.
  intros Hm HM Hd HCs Hds Hq Hrho Hrd HD HB HR HI0 HS.
  destruct (loose_runs groups fs z rt step val m M d Cs ds q rho I) as (C1 & rho1 & HC1 & Hr1 & Hrun); auto.
  { intros a e b Ga Ia Hab. destruct (HS a e b Ga Ia Hab) as (B1 & _ & B3). auto. }
  destruct solution_within as (K & dk & HK & Hdk & HW).
  assert (HMC : 0 <= M * Cs) by (apply Rmult_le_pos; auto). destruct (min4 ds (rho / (Cs + 1)) (m * rho / (M * Cs + 1)) rho1) as (ra & Hra & A1 & A2 & A3 & A4); auto; try lra; try (apply Rdiv_lt_0_compat; try lra; apply Rmult_lt_0_compat; auto).
  set (s := sqrt q). assert (Hs01 : 0 <= s < 1) by (apply sqrt_below; auto).
  set (C := Rmax (D * (M * Cs / m) / (1 - s)) (K * C1)). assert (Hi : 0 < / (1 - s)) by (apply Rinv_0_lt_compat; lra). assert (HMm : 0 <= M * Cs / m) by (apply Rmult_le_pos; auto; apply Rlt_le, Rinv_0_lt_compat; auto).
  assert (HX : 0 <= D * (M * Cs / m) / (1 - s)) by (apply Rmult_le_pos; [apply Rmult_le_pos; auto | lra]). assert (HC : 0 <= C) by (eapply Rle_trans; [exact HX | apply Rmax_l]).
  exists s, C, (Rmin ra (dk / (C1 + 1))). split; auto. split; auto. split; [apply Rmin_pos; auto; apply Rdiv_lt_0_compat; lra|].
  intros j a b e Ha Ho Hs Ht. pose proof (size_pos fs e) as Pe. assert (S1 : size fs e <= ra) by (eapply Rle_trans; [exact Hs | apply Rmin_l]). assert (S2 : size fs e <= dk / (C1 + 1)) by (eapply Rle_trans; [exact Hs | apply Rmin_r]).
  assert (Ps : 0 <= s ^ j) by (apply pow_le; lra). assert (Ps1 : s ^ j <= 1) by (rewrite <- (pow1 j); apply pow_incr; lra).
  split.
  - destruct (HR (val a) e Ho ltac:(lra)) as (e1 & Ho1 & Hf1 & Hs1). pose proof (small_mul rho Cs (size fs e) Hrho HCs ltac:(lra) Pe) as Q1.
    destruct (HB _ e1 Ho1 Hf1 ltac:(lra)) as (_ & U1). pose proof (size_pos fs e1) as P1. pose proof (small_mul (m * rho) (M * Cs) (size fs e) ltac:(apply Rmult_lt_0_compat; auto) HMC ltac:(lra) Pe) as Q2.
    assert (X1 : M * size fs e1 <= M * Cs * size fs e) by (rewrite Rmult_assoc; apply Rmult_le_compat_l; auto). assert (X0 : 0 <= M * size fs e1) by (apply Rmult_le_pos; auto).
    assert (C0 : cost_at E fs (val a) <= M * Cs * size fs e * (M * Cs * size fs e)) by (eapply Rle_trans; [exact U1|]; apply Rmult_le_compat; auto).
    assert (G0 : lst m rho (val a) e1). { split; auto. split; auto. split; [lra|]. eapply Rle_trans; [exact C0|]. apply Rmult_le_compat; auto; lra. }
    set (phi := fun a => D / m * sqrt (cost_at E fs (val a))). assert (HDm : 0 <= D / m) by (apply Rmult_le_pos; auto; apply Rlt_le, Rinv_0_lt_compat; auto).
    pose proof (creep fs step val (fun a => exists e, lst m rho (val a) e /\ I a e) phi s Hs01) as CR.
    assert (Hcr : forall k a c, (exists e, lst m rho (val a) e /\ I a e) -> turns step k a c -> (exists e, lst m rho (val c) e /\ I c e) /\ phi c <= s ^ k * phi a /\ within fs (phi a / (1 - s)) (val a) (val c)).
    { apply CR; [intros x _; apply Rmult_le_pos; auto; apply sqrt_pos|]. intros x y (ex & Gx & Ix) Hxy. destruct (HS x ex y Gx Ix Hxy) as (B1 & B2 & ey & Gy & Iy). split; [exists ey; auto|].
      split.
      - unfold phi. replace (s * (D / m * sqrt (cost_at E fs (val x)))) with (D / m * (s * sqrt (cost_at E fs (val x)))) by ring. apply Rmult_le_compat_l; auto. unfold s. rewrite <- sqrt_mult_alt by lra. apply sqrt_le_1_alt. auto.
      - eapply within_more; [|exact B2]. destruct Gx as (Gx1 & Gx2 & Gx3 & _). destruct (HB _ ex Gx1 Gx2 ltac:(lra)) as (L & _). pose proof (size_pos fs ex) as Px. assert (Y : m * size fs ex <= sqrt (cost_at E fs (val x))).
        { rewrite <- (sqrt_square (m * size fs ex)) by (apply Rmult_le_pos; lra). apply sqrt_le_1_alt. auto. }
        unfold phi, Rdiv. rewrite Rmult_assoc. apply Rmult_le_compat_l; auto. apply (Rmult_le_reg_l m); auto. rewrite <- Rmult_assoc, Rinv_r, Rmult_1_l by lra. auto. }
    destruct (Hcr j a b) as (Ib & Pb & _); auto; [exists e1; auto|]. intros k c Hbc. destruct (Hcr k b c Ib Hbc) as (_ & _ & W). eapply within_more; [|exact W].
    assert (Pa : phi a <= D / m * (M * Cs * size fs e)). { apply Rmult_le_compat_l; auto. assert (0 <= M * Cs * size fs e) by (apply Rmult_le_pos; auto). rewrite <- (sqrt_square (M * Cs * size fs e)) by auto. apply sqrt_le_1_alt. auto. }
    apply Rle_trans with (D * (M * Cs / m) / (1 - s) * s ^ j * size fs e).
    + replace (D * (M * Cs / m) / (1 - s) * s ^ j * size fs e) with (s ^ j * (D / m * (M * Cs * size fs e)) / (1 - s)) by (field; lra). apply Rmult_le_compat_r; [lra|]. eapply Rle_trans; [exact Pb|]. apply Rmult_le_compat_l; auto.
    + apply Rmult_le_compat_r; auto. apply Rmult_le_compat_r; auto. apply Rmax_l.
  - destruct (Hrun j a b e Ho ltac:(lra) (fun e => HI0 a e Ha) Ht) as (_ & e' & Ho' & Hs'). fold s in Hs'. pose proof (small_mul dk C1 (size fs e) Hdk HC1 S2 Pe) as Q.
    assert (Hle : C1 * s ^ j * size fs e <= C1 * size fs e) by (apply Rmult_le_compat_r; auto; rewrite <- (Rmult_1_r C1) at 2; apply Rmult_le_compat_l; auto).
    destruct (HW (val b) e' Ho' ltac:(lra)) as (w & Aw & Ww). exists w. split; auto. eapply within_more; [|exact Ww]. apply Rle_trans with (K * C1 * s ^ j * size fs e).
    + replace (K * C1 * s ^ j * size fs e) with (K * (C1 * s ^ j * size fs e)) by ring. apply Rmult_le_compat_l; auto.
    + apply Rmult_le_compat_r; auto. apply Rmult_le_compat_r; auto. apply Rmax_r.
Qed.

(* the one-step facts, with the distance moved *)
Lemma drift_near : exists m M d Cs ds D, 0 < m /\ 0 <= M /\ 0 < d /\ 0 <= Cs /\ 0 < ds /\ 0 <= D /\
  (forall val e, apart groups fs z val e -> fixes e -> size fs e <= d -> m * size fs e * (m * size fs e) <= cost_at E fs val <= M * size fs e * (M * size fs e)) /\
  (forall val e, apart groups fs z val e -> size fs e <= ds -> exists e', apart groups fs z val e' /\ fixes e' /\ size fs e' <= Cs * size fs e) /\
  forall b0 b1 qmin, 0 < b0 -> b0 <= b1 -> qmin < 1 -> exists q G rho0, 0 <= q < 1 /\ 0 <= G /\ 0 < rho0 /\ rho0 <= d /\
  forall rho, 0 < rho -> rho <= rho0 -> forall beta val old e xi p, 0 < beta -> (size fs e = 0 \/ b0 <= beta <= b1) -> lst m rho val e -> (forall v, In v (mentioned fs) -> old v = val v) ->
    damped_step E fs beta val old xi -> moved E fs val xi p ->
    size fs xi <= G * size fs e /\ within fs (D * G * size fs e) val p /\ (size fs e = 0 -> forall v, In v (mentioned fs) -> p v = val v) /\ (0 < size fs e -> qmin <= quality E fs val old xi p) /\ cost_at E fs p <= q * cost_at E fs val /\
    exists e', lst m rho p e' /\ (size fs e = 0 -> size fs e' = 0).
Proof.
  destruct (loose_near groups fs z SB rt HPa) as (m & M & d & Cs & ds & Hm & HM & Hd & HCs & Hds & HB & HR & HT). destruct step_within as (K & dk & HK & Hdk & HW).
  exists m, M, d, Cs, ds, K. do 6 (split; [assumption|]). split; [exact HB|]. split; [exact HR|]. intros b0 b1 qmin H0 H1 Hq. destruct (HT b0 b1 qmin H0 H1 Hq) as (q & G & rho0 & Hq1 & HG & Hr0 & Hrd & HS).
  exists q, G, (Rmin rho0 (dk / (G + 1))). split; auto. split; auto. split; [apply Rmin_pos; auto; apply Rdiv_lt_0_compat; lra|]. split; [eapply Rle_trans; [apply Rmin_l | auto]|].
  intros rho Hrho Hle beta val old e xi p Hb Hc Hl Hold Hdm Hmv. destruct (HS rho Hrho (Rle_trans _ _ _ Hle (Rmin_l _ _)) beta val old e xi p Hb Hc Hl Hold Hdm Hmv) as (S1 & S2). split; auto. split; [|exact S2].
  pose proof Hl as (Ho & _ & Hs & _). pose proof (size_pos fs e) as Pe. pose proof (Rmin_r rho0 (dk / (G + 1))) as I2. pose proof (small_mul dk G (size fs e) Hdk HG ltac:(lra) Pe) as Q.
  eapply within_more; [|apply (HW val xi p); auto; [eapply proper_apart; eauto | lra]]. rewrite Rmult_assoc. apply Rmult_le_compat_l; auto.
Qed.

Lemma drift_gn : drifts (gauss_newton_turn E fs) (fun v => v) (fun _ => True).
Proof.
  destruct drift_near as (m & M & d & Cs & ds & D & Hm & HM & Hd & HCs & Hds & HD & HB & HR & HT). destruct (HT (1 / 100000) (1 / 100000) 0 ltac:(lra) ltac:(lra) ltac:(lra)) as (q & G & rho & Hq & HG & Hrho & Hrd & HS).
  apply (drift_runs (gauss_newton_turn E fs) (fun v => v) _ m M d Cs ds q rho (D * G) (fun _ _ => True)); auto.
  - apply Rmult_le_pos; auto.
  - intros a e b Ga _ (xi & Hdm & Hmv). destruct (HS rho Hrho (Rle_refl _) (1 / 100000) a a e xi b ltac:(lra) ltac:(right; lra) Ga ltac:(auto) Hdm Hmv) as (_ & HWi & _ & _ & B & e' & Ge & _). split; [exact B|]. split; [exact HWi|]. exists e'. auto.
Qed.

Lemma drift_lm cfg : 0 < lambda_initial cfg -> 1 <= lambda_factor cfg -> 0 < lambda_min cfg -> lm_quality_min cfg < 1 ->
  drifts (lm_turn E fs cfg) b_val (fun b => b = mkBook (b_val b) (b_val b) (lambda_initial cfg)).
Proof.
  intros Hl Hf Hmin Hqm. destruct drift_near as (m & M & d & Cs & ds & D & Hm & HM & Hd & HCs & Hds & HD & HB & HR & HT).
  destruct (HT (1 / 100000) (lambda_initial cfg + 1 / 100000) (lm_quality_min cfg) ltac:(lra) ltac:(lra) Hqm) as (q & G & rho & Hq & HG & Hrho & Hrd & HS).
  apply (drift_runs (lm_turn E fs cfg) b_val _ m M d Cs ds q rho (D * G) (fun b e => (forall v, In v (mentioned fs) -> b_old b v = b_val b v) /\ 0 < b_extra b /\ (size fs e = 0 \/ b_extra b <= lambda_initial cfg))); auto.
  - apply Rmult_le_pos; auto.
  - intros a e Ea. rewrite Ea. cbn [b_val b_old b_extra]. split; auto. split; auto. right. lra.
  - intros a e b Ga (I1 & I2 & I3) (xi & p & Hdm & Hmv & Hdec).
    destruct (HS rho Hrho (Rle_refl _) (b_extra a + 1 / 100000) (b_val a) (b_old a) e xi p ltac:(lra) ltac:(destruct I3; [left; auto | right; lra]) Ga I1 Hdm Hmv) as (_ & HWi & HZ & HQ & B & e' & Ge & Hz').
    pose proof (size_pos fs e) as Pe. destruct Hdec as [(Ha & ->)|(Hr & ->)]; cbn [b_val b_old b_extra].
    + split; [exact B|]. split; [exact HWi|]. exists e'. split; auto. split; auto. split; [apply Rdiv_lt_0_compat; lra|]. destruct I3 as [I3|I3]; [left; auto|right]. apply Rle_trans with (b_extra a); auto. apply (Rmult_le_reg_r (lambda_factor cfg)); [lra|]. unfold Rdiv. rewrite Rmult_assoc, Rinv_l, Rmult_1_r by lra. nra.
    + destruct (Rle_lt_or_eq_dec 0 _ Pe) as [Hpos|Hz]; [specialize (HQ Hpos); lra|]. pose proof Ga as (Go & Gf & Gs & _).
      destruct (HB _ e Go Gf ltac:(lra)) as (_ & U). rewrite <- Hz, Rmult_0_r, Rmult_0_r in U. assert (U0 : 0 <= cost_at E fs (b_val a)) by (destruct (HB _ e Go Gf ltac:(lra)) as (L & _); rewrite <- Hz, !Rmult_0_r in L; lra).
      split; [replace (cost_at E fs (b_val a)) with 0 by lra; lra|]. split; [apply within_refl; apply Rmult_le_pos; auto; apply Rmult_le_pos; auto|]. exists e. split; auto. split; [intros v Hv; apply HZ; auto|].
      split; [eapply Rlt_le_trans; [exact Hmin | apply Rmax_l]|]. left; auto.
Qed.

Lemma drift_dl cfg : 0 < radius_initial cfg -> dl_quality_min cfg < 1 ->
  drifts (dogleg_turn E fs cfg) b_val (fun b => b = mkBook (b_val b) (b_val b) (radius_initial cfg)).
Proof.
  intros Hl Hqm. assert (Hq' : Rmax (dl_quality_min cfg) (1 / 4) < 1) by (apply Rmax_lub_lt; lra). pose proof (Rmax_l (dl_quality_min cfg) (1 / 4)) as X1. pose proof (Rmax_r (dl_quality_min cfg) (1 / 4)) as X2.
  destruct drift_near as (m & M & d & Cs & ds & D & Hm & HM & Hd & HCs & Hds & HD & HB & HR & HT). destruct (HT (1 / 100000) (1 / 100000) (Rmax (dl_quality_min cfg) (1 / 4)) ltac:(lra) ltac:(lra) Hq') as (q & G & rho0 & Hq & HG & Hrho0 & Hrd & HS).
  set (rho := Rmin rho0 (radius_initial cfg / (G + 1))). assert (Hrho : 0 < rho) by (apply Rmin_pos; auto; apply Rdiv_lt_0_compat; lra). assert (M1 : rho <= rho0) by apply Rmin_l. assert (M2 : rho <= radius_initial cfg / (G + 1)) by apply Rmin_r. clearbody rho.
  specialize (HS rho Hrho M1).
  apply (drift_runs (dogleg_turn E fs cfg) b_val _ m M d Cs ds q rho (D * G) (fun b e => (forall v, In v (mentioned fs) -> b_old b v = b_val b v) /\ 0 < b_extra b /\ (size fs e = 0 \/ radius_initial cfg <= b_extra b))); auto.
  - lra.
  - apply Rmult_le_pos; auto.
  - intros a e Ea. rewrite Ea. cbn [b_val b_old b_extra]. split; auto. split; auto. right. lra.
  - intros a e b Ga (I1 & I2 & I3) (xi & p & (gn & Hdm & Hpt) & Hmv & Hdec). pose proof Ga as (Go & Gf & Gs & _). pose proof (size_pos fs e) as Pe.
    assert (Hmv1 : exists p', moved E fs (b_val a) gn p') by (eexists (fun v => _); intros v Hv; reflexivity). destruct Hmv1 as (p1 & Hp1).
    destruct (HS (1 / 100000) (b_val a) (b_old a) e gn p1 ltac:(lra) ltac:(right; lra) Ga I1 Hdm Hp1) as (Sg & _).
    assert (Sg' : size fs gn <= b_extra a). { destruct I3 as [I3|I3]; [rewrite I3, Rmult_0_r in Sg; lra|]. pose proof (small_mul (radius_initial cfg) G (size fs e) Hl HG ltac:(lra) Pe). lra. }
    destruct Hpt as [(Hin & Hag)|(Hout & _)]; [|lra]. assert (Hp' : moved E fs (b_val a) gn p) by (intros v Hv; rewrite <- (Hag v Hv); apply Hmv; auto).
    destruct (HS (1 / 100000) (b_val a) (b_old a) e gn p ltac:(lra) ltac:(right; lra) Ga I1 Hdm Hp') as (_ & HWi & HZ & HQ & B & e' & Ge & Hz').
    assert (Eq : quality E fs (b_val a) (b_old a) xi p = quality E fs (b_val a) (b_old a) gn p) by (unfold quality; rewrite (model_ext E fs _ _ xi gn); auto). unfold decided in Hdec. rewrite Eq in Hdec.
    set (Q := quality E fs (b_val a) (b_old a) gn p) in *. set (ex := if Rlt_dec Q (1 / 4) then _ else _) in Hdec.
    assert (Pex : 0 < ex). { unfold ex. destruct (Rlt_dec Q (1 / 4)); [lra|]. destruct (Rlt_dec (3 / 4) Q); auto. eapply Rlt_le_trans; [exact I2 | apply Rmax_l]. }
    assert (Gex : 0 < size fs e -> b_extra a <= ex). { intros Hpos. specialize (HQ Hpos). unfold ex. destruct (Rlt_dec Q (1 / 4)); [lra|]. destruct (Rlt_dec (3 / 4) Q); [apply Rmax_l | apply Rle_refl]. }
    cbv zeta in Hdec. fold ex in Hdec. destruct Hdec as [(Ha & ->)|(Hr & ->)]; cbn [b_val b_old b_extra].
    + split; [exact B|]. split; [exact HWi|]. exists e'. split; auto. split; auto. split; auto. destruct (Rle_lt_or_eq_dec 0 _ Pe) as [Hpos|Hz]; [|left; auto]. destruct I3 as [I3|I3]; [lra|]. right. specialize (Gex Hpos). lra.
    + destruct (Rle_lt_or_eq_dec 0 _ Pe) as [Hpos|Hz]; [specialize (HQ Hpos); lra|].
      destruct (HB _ e Go Gf ltac:(lra)) as (L & U). rewrite <- Hz, !Rmult_0_r in L, U.
      split; [replace (cost_at E fs (b_val a)) with 0 by lra; lra|]. split; [apply within_refl; apply Rmult_le_pos; auto; apply Rmult_le_pos; auto|]. exists e. split; [assumption|]. auto 10.
Qed.
End Graph.
