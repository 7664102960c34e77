(* Proofs: Levenberg-Marquardt and Dogleg near poses at which all measurements hold. *)
From Coq Require Import List Arith Bool Lia Reals Lra Psatz.
From Verif Require Import Num NumR Py Arr MLayout MAssign MNoise MSparse MFactor MGraph MLinear MSolver MLie MPose SpecLayout SpecTree SpecAssign SpecNoise SpecGraph SpecLie SpecPose SpecZero SpecSpatial SpecTwin SpecInv SpecOrder SpecSolver SpecBook SpecNear SpecBasin PGraph PVec PLie PPose PFrame PSolverR PNoise PDescent PLocal PLin PLinDl POrder PTwin2 PFree PZero PJacZero PNear PSpatial PSpatial2 PSpatial3 PSpatial4 PBook PBasin4 PBasin5 PBasin6 PBasin7 PBasin8 PBasin9 PBasin10 PBasin11.
Import ListNotations.
Local Open Scope R_scope.

Lemma model_old (E : env R) fs val old old' xi : (forall v, In v (mentioned fs) -> old v = old' v) -> model E fs val old xi = model E fs val old' xi.
Proof.
  intros H. unfold model. apply vsum_map_ext. intros f Hf. unfold model_at.
  assert (whitened_at E old f = whitened_at E old' f) as ->; auto. unfold whitened_at, residual_at. do 2 f_equal. apply map_ext_in. intros v Hv. apply H, mentioned_in. eauto.
Qed.
Lemma damped_old (E : env R) fs beta val old old' xi : (forall v, In v (mentioned fs) -> old v = old' v) -> damped_step E fs beta val old xi -> damped_step E fs beta val old' xi.
Proof.
  intros H (T & M). split; auto. intros eta Te. destruct (M eta Te) as (H1 & H2). rewrite !(model_old E fs val old old' _ H) in H1. rewrite !(model_old E fs val old old' _ H) in H2. auto.
Qed.
Lemma near_one q0 C r x : 0 <= C -> 0 <= r -> q0 < 1 -> r <= (1 - q0) / (C + 1) -> Rabs (x - 1) <= C * r -> q0 <= x.
Proof. intros HC Hr Hq Hs H. pose proof (small_mul (1 - q0) C r ltac:(lra) HC Hs Hr) as B. destruct (Rle_or_lt q0 x) as [|G]; auto. exfalso. assert (K : Rabs (x - 1) = 1 - x) by (rewrite Rabs_left1; lra). lra. Qed.

Section Graph.
Variable groups : vty -> lie_ops R (list R).
Variable fs : list (factor R).
Variable z : var -> pytree R.
Hypothesis SB : solved_by groups fs z.
Let E := pose_env groups.

Lemma no_move e val xi p : moved E fs z e val -> tangent E fs xi -> size fs xi <= 0 -> moved E fs val xi p -> forall v, In v (mentioned fs) -> p v = val v.
Proof.
  intros Hm Tx Hs Hp v Hv. specialize (Hm v Hv). specialize (Hp v Hv). cbn in Hm, Hp. injection Hm as Hm. injection Hp as Hp. rewrite <- Hp, <- Hm. f_equal. rewrite params_value.
  pose proof (size_part fs xi v Hv) as B. assert (B0 : vnorm (xi v) <= 0) by lra. apply norm_zero in B0. rewrite (Tx v Hv) in B0. change (vldim (e_cls E) v) with (lg_dim (groups (v_ty v))) in B0. rewrite B0.
  pose proof (kn groups fs z SB v Hv) as Kv. set (y := lie_retract (groups (v_ty v)) (params (z v)) (e v)). assert (Ly : sized_pose (groups (v_ty v)) y) by (apply retract_dim; auto). clearbody y. unfold lie_retract, rplus. rewrite exp_zero_one by auto. apply mul_one; auto.
Qed.

Record state (rho : R) (good : R -> Prop) (b : book) (e : var -> list R) : Prop := {
  st_tan : tangent E fs e; st_size : size fs e <= rho; st_moved : moved E fs z e (b_val b); st_old : forall v, In v (mentioned fs) -> b_old b v = b_val b v;
  st_pos : 0 < b_extra b; st_good : size fs e = 0 \/ good (b_extra b) }.

Lemma runs_of (step : book -> book -> Prop) rho good q : 0 <= q <= 1 -> (forall b e b', state rho good b e -> step b b' -> exists e', state rho good b' e' /\ size fs e' <= q * size fs e) ->
  forall k b e b', state rho good b e -> turns step k b b' -> exists e', state rho good b' e' /\ size fs e' <= q ^ k * size fs e.
Proof.
  intros Hq HS k b e b' St Ht. revert e St. induction Ht as [x|k x y w Hs Ht IH]; intros e St; [exists e; split; auto; cbn [pow]; lra|].
  destruct (HS x e y St Hs) as (e1 & S1 & B1). destruct (IH e1 S1) as (e' & S' & B'). exists e'. split; auto. eapply Rle_trans; [exact B'|]. cbn [pow].
  replace (q * q ^ k * size fs e) with (q ^ k * (q * size fs e)) by ring. apply Rmult_le_compat_l; auto. apply pow_le; lra.
Qed.

(* one damped step from such a state *)
Lemma tried : rigid groups fs z -> forall b0 b1 qmin, 0 < b0 -> b0 <= b1 -> qmin < 1 -> exists q rho, 0 <= q < 1 /\ 0 < rho /\ forall beta b e xi p, 0 < beta -> (size fs e = 0 \/ b0 <= beta <= b1) ->
  tangent E fs e -> size fs e <= rho -> moved E fs z e (b_val b) -> (forall v, In v (mentioned fs) -> b_old b v = b_val b v) ->
  damped_step E fs beta (b_val b) (b_old b) xi -> moved E fs (b_val b) xi p ->
  size fs xi <= 3 * size fs e /\ (size fs e = 0 -> forall v, In v (mentioned fs) -> p v = b_val b v) /\ (0 < size fs e -> qmin <= quality E fs (b_val b) (b_old b) xi p) /\
  exists e', tangent E fs e' /\ moved E fs z e' p /\ size fs e' <= q * size fs e.
Proof.
  intros HR b0 b1 qmin Hb0 Hb1 Hq. destruct (turn_full groups fs z SB HR) as (m & rho1 & K & Hm & Hrho1 & HK & HT). destruct (basin_turn groups fs z SB HR b1 ltac:(lra)) as (q & rho2 & Hq1 & Hq0 & Hrho2 & HB).
  destruct (predict groups fs z SB HR b0 b1 Hb0 Hb1) as (rho3 & C & Hrho3 & HC & HP). assert (H4 : 0 < (1 - qmin) / (C + 1)) by (apply Rdiv_lt_0_compat; lra).
  destruct (min4 rho1 rho2 rho3 _ Hrho1 Hrho2 Hrho3 H4) as (rho & Hrho & M1 & M2 & M3 & M4). exists q, rho. split; [lra|]. split; auto.
  intros beta b e xi p Hbeta Hcase Te Hs Hv Ho Hd Hp. apply damped_old with (old' := b_val b) in Hd; auto. pose proof Hd as (Tx & _). pose proof (size_pos fs e) as Pe.
  destruct (HT beta _ e xi p Hbeta Te ltac:(lra) Hv Hd Hp) as (e1 & T1 & V1 & S1 & Sx & _). split; auto.
  assert (Z : size fs e = 0 -> size fs e1 <= 0) by (intros Z; rewrite Z, Rmult_0_r in S1; auto).
  split; [intros Z0; apply (no_move e _ xi); auto; lra|]. split.
  - intros Hpos. destruct Hcase as [H0|Hb]; [lra|]. unfold quality. rewrite (model_old E fs _ _ (b_val b)) by auto. apply (near_one qmin C (size fs e)); auto; try lra. apply (HP beta _ e xi p); auto; lra.
  - destruct Hcase as [H0|Hb]; [exists e1; split; auto; split; auto; rewrite H0, Rmult_0_r; auto|]. apply (HB beta (b_val b) e xi p); auto; lra.
Qed.

Lemma lm_basin cfg : rigid groups fs z -> 0 < lambda_initial cfg -> 1 <= lambda_factor cfg -> 0 < lambda_min cfg -> lm_quality_min cfg < 1 ->
  exists q rho, 0 <= q < 1 /\ 0 < rho /\ forall k val e b', tangent E fs e -> size fs e <= rho -> moved E fs z e val -> turns (lm_turn E fs cfg) k (mkBook val val (lambda_initial cfg)) b' ->
    exists e', tangent E fs e' /\ moved E fs z e' (b_val b') /\ size fs e' <= q ^ k * size fs e.
Proof.
  intros HR Hl Hf Hmin Hq. destruct (tried HR (1 / 100000) (lambda_initial cfg + 1 / 100000) (lm_quality_min cfg) ltac:(lra) ltac:(lra) Hq) as (q & rho & Hq1 & Hrho & HT). exists q, rho. split; auto. split; auto.
  set (good := fun l => l <= lambda_initial cfg). assert (HS : forall b e b', state rho good b e -> lm_turn E fs cfg b b' -> exists e', state rho good b' e' /\ size fs e' <= q * size fs e).
  { intros b e b' [S1 S2 S3 S4 S5 S6] (xi & p & Hd & Hp & Hdec). pose proof (size_pos fs e) as Pe.
    destruct (HT (b_extra b + 1 / 100000) b e xi p ltac:(lra) ltac:(destruct S6 as [|S6]; [left; auto | right; unfold good in S6; lra]) S1 S2 S3 S4 Hd Hp) as (_ & HZ & HQ & e' & T' & V' & B').
    assert (Sp : size fs e' <= rho) by (eapply Rle_trans; [exact B'|]; nra). pose proof (size_pos fs e') as Pe'.
    destruct Hdec as [(Ha & ->)|(Hr & ->)].
    - exists e'. split; auto. split; cbn [b_val b_old b_extra]; auto; [apply Rdiv_lt_0_compat; lra|]. destruct S6 as [S6|S6]; [left; rewrite S6, Rmult_0_r in B'; lra|right]. unfold good in *. apply Rle_trans with (b_extra b); auto.
      apply (Rmult_le_reg_r (lambda_factor cfg)); [lra|]. unfold Rdiv. rewrite Rmult_assoc, Rinv_l, Rmult_1_r by lra. nra.
    - destruct (Rle_lt_or_eq_dec 0 _ Pe) as [Hpos|Hz]; [specialize (HQ Hpos); lra|]. exists e. split; [|rewrite <- Hz; lra]. split; cbn [b_val b_old b_extra]; auto. eapply Rlt_le_trans; [exact Hmin | apply Rmax_l]. }
  intros k val e b' Te Hs Hv Ht. assert (S0 : state rho good (mkBook val val (lambda_initial cfg)) e) by (split; cbn [b_val b_old b_extra]; auto; right; unfold good; lra). destruct (runs_of (lm_turn E fs cfg) rho good q ltac:(lra) HS k _ e b' S0 Ht) as (e' & [S1 S2 S3 _ _ _] & B). eauto.
Qed.

Lemma dl_basin cfg : rigid groups fs z -> 0 < radius_initial cfg -> dl_quality_min cfg < 1 ->
  exists q rho, 0 <= q < 1 /\ 0 < rho /\ forall k val e b', tangent E fs e -> size fs e <= rho -> moved E fs z e val -> turns (dogleg_turn E fs cfg) k (mkBook val val (radius_initial cfg)) b' ->
    exists e', tangent E fs e' /\ moved E fs z e' (b_val b') /\ size fs e' <= q ^ k * size fs e.
Proof.
  intros HR Hl Hq. assert (Hq' : Rmax (dl_quality_min cfg) (1 / 4) < 1) by (apply Rmax_lub_lt; lra).
  destruct (tried HR (1 / 100000) (1 / 100000) (Rmax (dl_quality_min cfg) (1 / 4)) ltac:(lra) ltac:(lra) Hq') as (q & rho0 & Hq1 & Hrho0 & HT). pose proof (Rmax_l (dl_quality_min cfg) (1 / 4)) as X1. pose proof (Rmax_r (dl_quality_min cfg) (1 / 4)) as X2.
  set (rho := Rmin rho0 (radius_initial cfg / 3)). assert (Hrho : 0 < rho) by (apply Rmin_pos; lra). assert (M1 : rho <= rho0) by apply Rmin_l. assert (M2 : rho <= radius_initial cfg / 3) by apply Rmin_r. clearbody rho.
  exists q, rho. split; auto. split; auto.
  set (good := fun l => radius_initial cfg <= l). assert (HS : forall b e b', state rho good b e -> dogleg_turn E fs cfg b b' -> exists e', state rho good b' e' /\ size fs e' <= q * size fs e).
  { intros b e b' [S1 S2 S3 S4 S5 S6] (xi & p & (gn & Hd & Hpt) & Hp & Hdec). pose proof (size_pos fs e) as Pe.
    assert (Hmv : forall eta, exists p', moved E fs (b_val b) eta p') by (intros eta; eexists (fun v => _); intros v Hv; reflexivity).
    destruct (Hmv gn) as (p1 & Hp1). destruct (HT (1 / 100000) b e gn p1 ltac:(lra) ltac:(right; lra) S1 ltac:(lra) S3 S4 Hd Hp1) as (Sg & _).
    destruct Hpt as [(Hin & Hag)|(Hout & _)]; [|exfalso; destruct S6 as [S6|S6]; [lra | unfold good in S6; lra]].
    assert (Hp' : moved E fs (b_val b) gn p) by (intros v Hv; rewrite <- (Hag v Hv); apply Hp; auto).
    destruct (HT (1 / 100000) b e gn p ltac:(lra) ltac:(right; lra) S1 ltac:(lra) S3 S4 Hd Hp') as (_ & HZ & HQ & e' & T' & V' & B').
    assert (Eq : quality E fs (b_val b) (b_old b) xi p = quality E fs (b_val b) (b_old b) gn p) by (unfold quality; rewrite (model_ext E fs _ _ xi gn); auto). unfold decided in Hdec. rewrite Eq in Hdec.
    set (Q := quality E fs (b_val b) (b_old b) gn p) in *. set (ex := if Rlt_dec Q (1 / 4) then _ else _) in Hdec.
    assert (Pex : 0 < ex). { unfold ex. destruct (Rlt_dec Q (1 / 4)); [lra|]. destruct (Rlt_dec (3 / 4) Q); auto. eapply Rlt_le_trans; [exact S5 | apply Rmax_l]. }
    assert (Gex : 0 < size fs e -> b_extra b <= ex). { intros Hpos. specialize (HQ Hpos). unfold ex. destruct (Rlt_dec Q (1 / 4)); [lra|]. destruct (Rlt_dec (3 / 4) Q); [apply Rmax_l | apply Rle_refl]. }
    assert (Sp : size fs e' <= rho) by (eapply Rle_trans; [exact B'|]; nra). pose proof (size_pos fs e') as Pe'. cbv zeta in Hdec. fold ex in Hdec.
    destruct Hdec as [(Ha & ->)|(Hr & ->)].
    - exists e'. split; auto. split; cbn [b_val b_old b_extra]; auto. destruct (Rle_lt_or_eq_dec 0 _ Pe) as [Hpos|Hz]; [|left; rewrite <- Hz, Rmult_0_r in B'; lra]. destruct S6 as [S6|S6]; [lra|]. right. specialize (Gex Hpos). unfold good in *. lra.
    - destruct (Rle_lt_or_eq_dec 0 _ Pe) as [Hpos|Hz]; [specialize (HQ Hpos); lra|]. exists e. split; [|rewrite <- Hz; lra]. split; cbn [b_val b_old b_extra]; auto. }
  intros k val e b' Te Hs Hv Ht. assert (S0 : state rho good (mkBook val val (radius_initial cfg)) e) by (split; cbn [b_val b_old b_extra]; auto; right; unfold good; lra). destruct (runs_of (dogleg_turn E fs cfg) rho good q ltac:(lra) HS k _ e b' S0 Ht) as (e' & [S1 S2 S3 _ _ _] & B). eauto.
Qed.
End Graph.
