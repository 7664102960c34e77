(* Proofs: the solvers on any pose graph whose measurements all hold at some poses. *)
From Coq Require Import List Arith Bool Lia Reals Lra Psatz.
From Verif Require Import Num NumR Py Arr MLayout MAssign MNoise MSparse MFactor MGraph MLinear MSolver MLie MPose SpecLayout SpecTree SpecAssign SpecNoise SpecGraph SpecLie SpecPose SpecZero SpecSpatial SpecTwin SpecInv SpecOrder SpecSolver SpecSym SpecFrame SpecBook SpecNear SpecBasin SpecGauge PGraph PVec PLie PPose PFrame PExSym PSolverR PNoise PDescent PLocal PLin PLinDl POrder PDeriv PTwin2 PFree PZero PJacZero PNear PSpatial PSpatial2 PSpatial3 PSpatial4 PBook PBasin4 PBasin5 PBasin6 PBasin7 PBasin8 PBasin9 PBasin10 PBasin11 PBasin12 PGauge PGauge2 PGauge3 SpecLoose PGauge4 PLoose PLoose2.
Import ListNotations.
Local Open Scope R_scope.
Notation moved := SpecBook.moved.

Section Graph.
Variable groups : vty -> lie_ops R (list R).
Variable fs : list (factor R).
Variable z : var -> pytree R.
Hypothesis SB : solved_by groups fs z.
Variable rt : var -> option var.
Hypothesis HPa : parts fs rt.
Let E := pose_env groups.
Notation field := (var -> list R).
Notation LL := (LL groups fs).
Notation RR := (RR groups fs).
Notation fixes e := (rooted groups fs rt e).

Definition lst (m rho : R) (val : var -> pytree R) (e : field) : Prop :=
  apart groups fs z val e /\ fixes e /\ size fs e <= rho /\ cost_at E fs val <= m * rho * (m * rho).

Lemma loose_near : exists m M d Cs ds, 0 < m /\ 0 <= M /\ 0 < d /\ 0 <= Cs /\ 0 < ds /\
  (forall val e, apart groups fs z val e -> fixes e -> size fs e <= d -> m * size fs e * (m * size fs e) <= cost_at E fs val <= M * size fs e * (M * size fs e)) /\
  (forall val e, apart groups fs z val e -> size fs e <= ds -> exists e', apart groups fs z val e' /\ fixes e' /\ size fs e' <= Cs * size fs e) /\
  forall b0 b1 qmin, 0 < b0 -> b0 <= b1 -> qmin < 1 -> exists q G rho0, 0 <= q < 1 /\ 0 <= G /\ 0 < rho0 /\ rho0 <= d /\
  forall rho, 0 < rho -> rho <= rho0 -> forall beta val old e xi p, 0 < beta -> (size fs e = 0 \/ b0 <= beta <= b1) -> lst m rho val e -> (forall v, In v (mentioned fs) -> old v = val v) ->
    damped_step E fs beta val old xi -> moved E fs val xi p ->
    size fs xi <= G * size fs e /\ (size fs e = 0 -> forall v, In v (mentioned fs) -> p v = val v) /\ (0 < size fs e -> qmin <= quality E fs val old xi p) /\ cost_at E fs p <= q * cost_at E fs val /\
    exists e', lst m rho p e' /\ (size fs e = 0 -> size fs e' = 0).
Proof.
  destruct (slice_near groups fs z SB (rooted groups fs rt) (parts_lower groups fs z SB rt HPa)) as (m & M & d & Hm & HM & Hd & HS). destruct (resplit groups fs z SB rt HPa) as (Cs & ds & HCs & Hds & HR). destruct (graph_near groups fs z SB) as (K & d1 & HK & Hd1 & HN).
  exists m, M, d, Cs, ds. do 5 (split; auto).
  assert (HB : forall val e, apart groups fs z val e -> fixes e -> size fs e <= d -> m * size fs e * (m * size fs e) <= cost_at E fs val <= M * size fs e * (M * size fs e)).
  { intros val e (Te & w & Hw & fr & Hu & Hfr) Hf Hs. pose proof (legal_of groups fs z SB e w Hw) as Lw. pose proof (carried_cost groups fs z SB fr Hu w val Lw Hfr) as Ec. fold E in Ec. rewrite Ec. destruct (HS e w Te Hf Hs Hw) as (HC & C1 & C2). fold E in HC. rewrite HC. destruct (vnorm_sq (RR w)) as (Y0 & Y1). rewrite <- Y1.
    pose proof (size_pos fs e) as P. assert (0 <= m * size fs e) by (apply Rmult_le_pos; lra). split; apply Rmult_le_compat; auto; lra. }
  split; auto. split.
  { intros val e (Te & w & Hw & fr & Hu & Hfr) Hs. destruct (HR e w Te Hs Hw) as (fr2 & e' & w' & Hu2 & Te' & Hf' & Hs' & Hw' & Hfr2). exists e'. split; [|auto]. split; auto. exists w'. split; auto.
    destruct (carried_then groups fs z SB fr2 fr w' w val Hu2 Hu Hfr2 Hfr) as (fc & Hc1 & Hc2). exists fc. auto. }
  intros b0 b1 qmin Hb0 Hb1 Hq. destruct (slice_step groups fs z SB (rooted groups fs rt) m M d Hm HM Hd HS b0 b1 Hb0 Hb1) as (q & G & P & rho1 & Hq1 & HG & HPp & Hr1 & Hrd & HT).
  destruct (min4 rho1 (ds / (G + 1)) (d / (Cs * G + 1)) ((1 - qmin) / (P + 1))) as (ra & Hra & A1 & A2 & A3 & A4); auto; try (apply Rdiv_lt_0_compat; lra).
  { assert (0 <= Cs * G) by (apply Rmult_le_pos; auto). apply Rdiv_lt_0_compat; lra. }
  exists q, G, (Rmin ra d1). split; auto. split; auto. split; [apply Rmin_pos; auto|]. pose proof (Rmin_l ra d1) as I1. pose proof (Rmin_r ra d1) as I2. split; [lra|].
  intros rho Hrho Hrr beta val old e xi p Hbeta Hcase ((Te & w & Hw & fr & Hu & Hfr) & Hf & Hs & Hc) Hold Hdm Hp. apply damped_old with (old' := val) in Hdm; auto.
  pose proof (legal_of groups fs z SB e w Hw) as Lw. apply (carried_damped groups fs z SB fr Hu beta w val xi Lw Hfr) in Hdm. destruct (carried_moved groups fs z SB fr w val xi p Hfr Hp) as (p0 & Hp0 & Hfr0).
  pose proof (carried_cost groups fs z SB fr Hu w val Lw Hfr) as Ec. fold E in Ec. pose proof (size_pos fs e) as Pe. pose proof Hdm as (Tx & _).
  destruct (Rle_lt_or_eq_dec 0 _ Pe) as [Hpos|Hz].
  - destruct Hcase as [|Hb]; [lra|]. destruct (HT beta w e xi p0 Hb Te Hf ltac:(lra) Hw Hdm Hp0) as (B1 & B2 & B3 & e1 & T1 & M1 & S1). fold E in B2, B3.
    pose proof (legal_of groups fs z SB e1 p0 M1) as Lp0. pose proof (carried_cost groups fs z SB fr Hu p0 p Lp0 Hfr0) as Ep. fold E in Ep. split; auto. split; [intros; lra|]. split.
    + intros _. unfold quality. rewrite (model_old E fs _ _ val) by auto. change (qmin <= quality E fs val val xi p). unfold E. rewrite (carried_quality groups fs z SB fr Hu w val xi p0 p Lw Lp0 Hfr Hfr0). apply (near_one qmin P (size fs e)); auto; lra.
    + rewrite Ep, Ec. split; auto. pose proof (small_mul ds G (size fs e) Hds HG ltac:(lra) Pe) as Q1. assert (HCG : 0 <= Cs * G) by (apply Rmult_le_pos; auto). pose proof (small_mul d (Cs * G) (size fs e) Hd HCG ltac:(lra) Pe) as Q2.
      destruct (HR e1 p0 T1 ltac:(lra) M1) as (fr2 & e' & w' & Hu2 & Te' & Hf' & Hs' & Hw' & Hfr2). exists e'. destruct (carried_then groups fs z SB fr2 fr w' p0 p Hu2 Hu Hfr2 Hfr0) as (fc & Hc1 & Hc2).
      assert (Ho : apart groups fs z p e') by (split; auto; exists w'; split; auto; exists fc; auto).
      assert (Sd : size fs e' <= d). { eapply Rle_trans; [exact Hs'|]. assert (Cs * size fs e1 <= Cs * (G * size fs e)) by (apply Rmult_le_compat_l; auto). lra. }
      destruct (HB p e' Ho Hf' Sd) as (L1 & _). rewrite Ep in L1. assert (Pc : 0 <= cost_at E fs w) by (unfold cost_at; apply vsum_nonneg; intros x Hx; apply in_map_iff in Hx; destruct Hx as (f & <- & _); destruct (whitened_at E w f); [apply sumsq_nonneg | lra]).
      assert (Cp : cost_at E fs p0 <= m * rho * (m * rho)) by nra.
      split; [|intros; lra]. split; auto. split; auto. split; [|rewrite Ep; exact Cp]. assert (X : m * size fs e' <= m * rho) by (apply sq_le; [apply Rmult_le_pos; lra | lra]). apply (Rmult_le_reg_l m); auto.
  - assert (H0 : size fs e = 0) by auto. destruct (HN e w (size fs e) Te (Rle_refl _) ltac:(lra) Hw) as ((HCv & HMod) & _ & _). fold E in HCv, HMod. destruct (HS e w Te Hf ltac:(lra) Hw) as (_ & _ & C2). rewrite H0, Rmult_0_r in C2.
    destruct (vnorm_sq (RR w)) as (Y0 & Y1). assert (Ec0 : cost_at E fs w = 0) by (rewrite HCv, <- Y1; assert (vnorm (RR w) = 0) by lra; nra).
    pose proof (damped_zero groups fs z SB beta w e xi Hw Hbeta Hdm HMod HCv) as HZ. fold E in HZ. rewrite Ec0, (HMod xi Tx) in HZ. pose proof (sumsq_nonneg (vadd (LL w xi) (RR w))) as P1. pose proof (size_pos fs xi) as P2.
    assert (Sx : size fs xi <= 0). { apply sq_le; [lra|]. apply (Rmult_le_reg_l beta); auto. lra. }
    pose proof (no_move groups fs z SB e w xi p0 Hw Tx Sx Hp0) as Hnm. rewrite H0, Rmult_0_r. split; auto. split; [intros _ v Hv; rewrite (Hfr0 v Hv), (Hnm v Hv), (Hfr v Hv); auto|]. split; [intros; lra|].
    assert (Hfp : carried groups fs fr w p) by (intros v Hv; rewrite (Hfr0 v Hv), (Hnm v Hv); auto). pose proof (carried_cost groups fs z SB fr Hu w p Lw Hfp) as Ep. fold E in Ep. rewrite Ep, Ec, Ec0. split; [lra|].
    exists e. split; auto. split; [split; auto; exists w; split; auto; exists fr; auto|]. split; auto. split; auto. rewrite Ep, <- Ec. auto.
Qed.

(* from one-step facts to runs *)
Lemma loose_runs {A} (step : A -> A -> Prop) (val : A -> var -> pytree R) m M d Cs ds q rho (I : A -> field -> Prop) : 0 < m -> 0 <= M -> 0 < d -> 0 <= Cs -> 0 < ds -> 0 <= q < 1 -> 0 < rho -> rho <= d ->
  (forall val e, apart groups fs z val e -> fixes e -> size fs e <= d -> m * size fs e * (m * size fs e) <= cost_at E fs val <= M * size fs e * (M * size fs e)) ->
  (forall val e, apart groups fs z val e -> size fs e <= ds -> exists e', apart groups fs z val e' /\ fixes e' /\ size fs e' <= Cs * size fs e) ->
  (forall a e b, lst m rho (val a) e -> I a e -> step a b -> cost_at E fs (val b) <= q * cost_at E fs (val a) /\ exists e', lst m rho (val b) e' /\ I b e') ->
  exists C rho', 0 <= C /\ 0 < rho' /\ forall k a b e, apart groups fs z (val a) e -> size fs e <= rho' -> (forall e, I a e) -> turns step k a b ->
    cost_at E fs (val b) <= sqrt q ^ k * sqrt q ^ k * cost_at E fs (val a) /\ exists e', apart groups fs z (val b) e' /\ size fs e' <= C * sqrt q ^ k * size fs e.
Proof.
  intros Hm HM Hd HCs Hds Hq Hrho Hrd HB HR HS. assert (HMC : 0 <= M * Cs) by (apply Rmult_le_pos; auto). destruct (min4 ds (rho / (Cs + 1)) (m * rho / (M * Cs + 1)) 1) as (ra & Hra & A1 & A2 & A3 & _); auto; try lra; try (apply Rdiv_lt_0_compat; try lra; apply Rmult_lt_0_compat; auto).
  exists (M * Cs / m), ra. split; [apply Rmult_le_pos; auto; apply Rlt_le, Rinv_0_lt_compat; auto|]. split; auto. intros k a b e Ho Hs HI Ht. pose proof (size_pos fs e) as Pe.
  destruct (HR (val a) e Ho ltac:(lra)) as (e1 & Ho1 & Hf1 & Hs1). pose proof (small_mul rho Cs (size fs e) Hrho HCs ltac:(lra) Pe) as Q1.
  destruct (HB _ e1 Ho1 Hf1 ltac:(lra)) as (_ & U1). pose proof (size_pos fs e1) as P1. pose proof (small_mul (m * rho) (M * Cs) (size fs e) ltac:(apply Rmult_lt_0_compat; auto) HMC ltac:(lra) Pe) as Q2.
  assert (X1 : M * size fs e1 <= M * Cs * size fs e) by (rewrite Rmult_assoc; apply Rmult_le_compat_l; auto). assert (X0 : 0 <= M * size fs e1) by (apply Rmult_le_pos; auto).
  assert (C0 : cost_at E fs (val a) <= M * Cs * size fs e * (M * Cs * size fs e)) by (eapply Rle_trans; [exact U1|]; apply Rmult_le_compat; auto).
  assert (G0 : lst m rho (val a) e1). { split; auto. split; auto. split; [lra|]. eapply Rle_trans; [exact C0|]. apply Rmult_le_compat; auto; lra. }
  destruct (shrinks step (fun a => exists e, lst m rho (val a) e /\ I a e) (fun a => cost_at E fs (val a)) q ltac:(lra)) with (k := k) (a := a) (b := b) as ((e' & Ge' & _) & Hc); auto.
  { intros x y (ex & Gx & Ix) Hxy. destruct (HS x ex y Gx Ix Hxy) as (B1 & ey & Gy & Iy). split; auto. exists ey. auto. }
  { exists e1. auto. }
  assert (Eq : sqrt q ^ k * sqrt q ^ k = q ^ k) by (rewrite <- Rpow_mult_distr, sqrt_sqrt by lra; auto). rewrite Eq. split; auto. exists e'. destruct Ge' as (Ho' & Hf' & Hs' & _). split; auto.
  destruct (HB _ e' Ho' Hf' ltac:(lra)) as (L1 & _). assert (Pq : 0 <= q ^ k) by (apply pow_le; lra). set (s := sqrt q ^ k) in *. assert (Ps : 0 <= s) by (apply pow_le, sqrt_pos).
  assert (Y : m * size fs e' <= s * (M * Cs * size fs e)).
  { apply sq_le; [apply Rmult_le_pos; auto; apply Rmult_le_pos; auto|]. replace (s * (M * Cs * size fs e) * (s * (M * Cs * size fs e))) with (q ^ k * (M * Cs * size fs e * (M * Cs * size fs e))) by (rewrite <- Eq; ring). assert (q ^ k * cost_at E fs (val a) <= q ^ k * (M * Cs * size fs e * (M * Cs * size fs e))) by (apply Rmult_le_compat_l; auto). lra. }
  apply (Rmult_le_reg_l m); auto. replace (m * (M * Cs / m * s * size fs e)) with (s * (M * Cs * size fs e)) by (field; lra). auto.
Qed.

Definition settles {A} (step : A -> A -> Prop) (val : A -> var -> pytree R) (start : A -> Prop) : Prop :=
  exists q C rho, 0 <= q < 1 /\ 0 <= C /\ 0 < rho /\ forall k a b e, start a -> apart groups fs z (val a) e -> size fs e <= rho -> turns step k a b ->
    cost_at E fs (val b) <= q ^ k * q ^ k * cost_at E fs (val a) /\ exists e', apart groups fs z (val b) e' /\ size fs e' <= C * q ^ k * size fs e.



Lemma loose_gn : settles (gauss_newton_turn E fs) (fun v => v) (fun _ => True).
Proof.
  destruct loose_near as (m & M & d & Cs & ds & Hm & HM & Hd & HCs & Hds & HB & HR & HT). destruct (HT (1 / 100000) (1 / 100000) 0 ltac:(lra) ltac:(lra) ltac:(lra)) as (q & G & rho & Hq & HG & Hrho & Hrd & HS).
  destruct (loose_runs (gauss_newton_turn E fs) (fun v => v) m M d Cs ds q rho (fun _ _ => True)) as (C & rho' & HC & Hr' & Hrun); auto.
  - intros a e b Ga _ (xi & Hdm & Hmv). destruct (HS rho Hrho (Rle_refl _) (1 / 100000) a a e xi b ltac:(lra) ltac:(right; lra) Ga ltac:(auto) Hdm Hmv) as (_ & _ & _ & B & e' & Ge & _). split; auto. exists e'. auto.
  - exists (sqrt q), C, rho'. split; [apply sqrt_below; auto|]. split; [exact HC|]. split; [exact Hr'|]. intros k a b e _ Ho Hs Ht. apply Hrun; auto.
Qed.

Lemma loose_lm cfg : 0 < lambda_initial cfg -> 1 <= lambda_factor cfg -> 0 < lambda_min cfg -> lm_quality_min cfg < 1 ->
  settles (lm_turn E fs cfg) b_val (fun b => b = mkBook (b_val b) (b_val b) (lambda_initial cfg)).
Proof.
  intros Hl Hf Hmin Hqm. destruct loose_near as (m & M & d & Cs & ds & Hm & HM & Hd & HCs & Hds & HB & HR & HT).
  destruct (HT (1 / 100000) (lambda_initial cfg + 1 / 100000) (lm_quality_min cfg) ltac:(lra) ltac:(lra) Hqm) as (q & G & rho & Hq & HG & Hrho & Hrd & HS).
  destruct (loose_runs (lm_turn E fs cfg) b_val m M d Cs ds q rho (fun b e => (forall v, In v (mentioned fs) -> b_old b v = b_val b v) /\ 0 < b_extra b /\ (size fs e = 0 \/ b_extra b <= lambda_initial cfg))) as (C & rho' & HC & Hr' & Hrun); auto.
  - intros a e b Ga (I1 & I2 & I3) (xi & p & Hdm & Hmv & Hdec).
    destruct (HS rho Hrho (Rle_refl _) (b_extra a + 1 / 100000) (b_val a) (b_old a) e xi p ltac:(lra) ltac:(destruct I3; [left; auto | right; lra]) Ga I1 Hdm Hmv) as (_ & HZ & HQ & B & e' & Ge & Hz').
    pose proof (size_pos fs e) as Pe. destruct Hdec as [(Ha & ->)|(Hr & ->)]; cbn [b_val b_old b_extra].
    + split; auto. exists e'. split; auto. split; auto. split; [apply Rdiv_lt_0_compat; lra|]. destruct I3 as [I3|I3]; [left; auto|right]. apply Rle_trans with (b_extra a); auto. apply (Rmult_le_reg_r (lambda_factor cfg)); [lra|]. unfold Rdiv. rewrite Rmult_assoc, Rinv_l, Rmult_1_r by lra. nra.
    + destruct (Rle_lt_or_eq_dec 0 _ Pe) as [Hpos|Hz]; [specialize (HQ Hpos); lra|]. pose proof Ga as (Go & Gf & Gs & _).
      destruct (HB _ e Go Gf ltac:(lra)) as (_ & U). rewrite <- Hz, Rmult_0_r, Rmult_0_r in U. assert (U0 : 0 <= cost_at E fs (b_val a)) by (destruct (HB _ e Go Gf ltac:(lra)) as (L & _); rewrite <- Hz, !Rmult_0_r in L; lra).
      split; [replace (cost_at E fs (b_val a)) with 0 by lra; lra|]. exists e. split; auto. split; [intros v Hv; apply HZ; auto|].
      split; [eapply Rlt_le_trans; [exact Hmin | apply Rmax_l]|]. left; auto.
  - exists (sqrt q), C, rho'. split; [apply sqrt_below; auto|]. split; [exact HC|]. split; [exact Hr'|]. intros k a b e Ea Ho Hs Ht. apply (Hrun k a b e); auto. intros e0. rewrite Ea. cbn [b_val b_old b_extra]. split; auto. split; auto. right. lra.
Qed.

Lemma loose_dl cfg : 0 < radius_initial cfg -> dl_quality_min cfg < 1 ->
  settles (dogleg_turn E fs cfg) b_val (fun b => b = mkBook (b_val b) (b_val b) (radius_initial cfg)).
Proof.
  intros Hl Hqm. assert (Hq' : Rmax (dl_quality_min cfg) (1 / 4) < 1) by (apply Rmax_lub_lt; lra). pose proof (Rmax_l (dl_quality_min cfg) (1 / 4)) as X1. pose proof (Rmax_r (dl_quality_min cfg) (1 / 4)) as X2.
  destruct loose_near as (m & M & d & Cs & ds & Hm & HM & Hd & HCs & Hds & HB & HR & HT). destruct (HT (1 / 100000) (1 / 100000) (Rmax (dl_quality_min cfg) (1 / 4)) ltac:(lra) ltac:(lra) Hq') as (q & G & rho0 & Hq & HG & Hrho0 & Hrd & HS).
  set (rho := Rmin rho0 (radius_initial cfg / (G + 1))). assert (Hrho : 0 < rho) by (apply Rmin_pos; auto; apply Rdiv_lt_0_compat; lra). assert (M1 : rho <= rho0) by apply Rmin_l. assert (M2 : rho <= radius_initial cfg / (G + 1)) by apply Rmin_r. clearbody rho.
  specialize (HS rho Hrho M1).
  destruct (loose_runs (dogleg_turn E fs cfg) b_val m M d Cs ds q rho (fun b e => (forall v, In v (mentioned fs) -> b_old b v = b_val b v) /\ 0 < b_extra b /\ (size fs e = 0 \/ radius_initial cfg <= b_extra b))) as (C & rho' & HC & Hr' & Hrun); auto; [lra| |].
  - intros a e b Ga (I1 & I2 & I3) (xi & p & (gn & Hdm & Hpt) & Hmv & Hdec). pose proof Ga as (Go & Gf & Gs & _). pose proof (size_pos fs e) as Pe.
    assert (Hmv1 : exists p', moved E fs (b_val a) gn p') by (eexists (fun v => _); intros v Hv; reflexivity). destruct Hmv1 as (p1 & Hp1).
    destruct (HS (1 / 100000) (b_val a) (b_old a) e gn p1 ltac:(lra) ltac:(right; lra) Ga I1 Hdm Hp1) as (Sg & _).
    assert (Sg' : size fs gn <= b_extra a). { destruct I3 as [I3|I3]; [rewrite I3, Rmult_0_r in Sg; lra|]. pose proof (small_mul (radius_initial cfg) G (size fs e) Hl HG ltac:(lra) Pe). lra. }
    destruct Hpt as [(Hin & Hag)|(Hout & _)]; [|lra]. assert (Hp' : moved E fs (b_val a) gn p) by (intros v Hv; rewrite <- (Hag v Hv); apply Hmv; auto).
    destruct (HS (1 / 100000) (b_val a) (b_old a) e gn p ltac:(lra) ltac:(right; lra) Ga I1 Hdm Hp') as (_ & HZ & HQ & B & e' & Ge & Hz').
    assert (Eq : quality E fs (b_val a) (b_old a) xi p = quality E fs (b_val a) (b_old a) gn p) by (unfold quality; rewrite (model_ext E fs _ _ xi gn); auto). unfold decided in Hdec. rewrite Eq in Hdec.
    set (Q := quality E fs (b_val a) (b_old a) gn p) in *. set (ex := if Rlt_dec Q (1 / 4) then _ else _) in Hdec.
    assert (Pex : 0 < ex). { unfold ex. destruct (Rlt_dec Q (1 / 4)); [lra|]. destruct (Rlt_dec (3 / 4) Q); auto. eapply Rlt_le_trans; [exact I2 | apply Rmax_l]. }
    assert (Gex : 0 < size fs e -> b_extra a <= ex). { intros Hpos. specialize (HQ Hpos). unfold ex. destruct (Rlt_dec Q (1 / 4)); [lra|]. destruct (Rlt_dec (3 / 4) Q); [apply Rmax_l | apply Rle_refl]. }
    cbv zeta in Hdec. fold ex in Hdec. destruct Hdec as [(Ha & ->)|(Hr & ->)]; cbn [b_val b_old b_extra].
    + split; auto. exists e'. split; auto. split; auto. split; auto. destruct (Rle_lt_or_eq_dec 0 _ Pe) as [Hpos|Hz]; [|left; auto]. destruct I3 as [I3|I3]; [lra|]. right. specialize (Gex Hpos). lra.
    + destruct (Rle_lt_or_eq_dec 0 _ Pe) as [Hpos|Hz]; [specialize (HQ Hpos); lra|].
      destruct (HB _ e Go Gf ltac:(lra)) as (L & U). rewrite <- Hz, !Rmult_0_r in L, U.
      split; [replace (cost_at E fs (b_val a)) with 0 by lra; lra|]. exists e. split; [assumption|]. auto 10.
  - exists (sqrt q), C, rho'. split; [apply sqrt_below; auto|]. split; [exact HC|]. split; [exact Hr'|]. intros k a b e Ea Ho Hs Ht. apply (Hrun k a b e); auto. intros e0. rewrite Ea. cbn [b_val b_old b_extra]. split; auto. split; auto. right. lra.
Qed.
End Graph.
