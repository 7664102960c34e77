(* Solves that start close to an exact fit: how far they get, and what the stopping tests say about the result. *)
From Coq Require Import List Arith Bool ZArith Lia Reals Lra Psatz.
From Verif Require Import Num NumR Py Arr MLayout MAssign MNoise MSparse MFactor MGraph MLinear MSolver SpecLayout SpecTree SpecAssign SpecGraph SpecSparse SpecDeriv SpecSolver SpecOrder SpecInv SpecLin SpecCgLin SpecDescent SpecLocal SpecTrust SpecFinish.
From Verif Require Import PBase PLayout PAssign PAssign2 PStack PGraph PGraph2 PGraph3 PGraph4 PVec PSparse PLinear PCg PCgConv PJac PGraph5 PLayout2 POrder POrder2 PHold PExGraph PSolver PSolver2 PInv PTotal PSolverR PDescent PLin PLinDl PLinCg PLocal PBasin4 PBasin5 PBasin6 PExInv PExLinDl PExLocal PExHalt PTrust PTrust2 PFinish.
Import ListNotations.
Local Open Scope R_scope.

(* what solve returns, from what the runs of the loop body do *)
Lemma solve_stopped E fs g lin : well_posed E fs -> graph_make E fs = Ok g -> total_solver lin ->
  forall step extra solve cap fuel init val (P : nat -> (var -> pytree R) -> Prop), nonlinear_solver E lin step extra solve ->
  (exists r, solve fuel g init = Some r /\ solve_outcome E step extra 1 cap g init r) -> assigns E fs init val ->
  (forall k s st, at_values E fs g s val -> s_extra s = extra -> s_iter s = 0%nat -> s_done s = false -> runs (step g) k s st -> s_done st = true -> exists val', at_values E fs g st val' /\ P k val') ->
  exists a' val' k, solve fuel g init = Some (Ok a') /\ assigns E fs a' val' /\ (1 <= k <= cap)%nat /\ P k val'.
Proof.
  intros WP Eg Hlin step extra solve cap fuel init val P Hsol (r & Er & Ho) Hi HP. pose proof WP as [CO Hok Hws _ _]. destruct (made E fs g Hok Eg) as (Hg & _).
  destruct (never_raises E fs WP) as (g' & Eg' & Hnr). assert (g' = g) by congruence. subst g'. destruct (Hnr lin step extra solve Hlin Hsol init val Hi) as (Hne' & _).
  destruct (update_holds E CO fs init val Hi) as (a & Eu & Ha). unfold solve_outcome in Ho. rewrite (ig_layout _ _ _ Hg), Eu in Ho.
  destruct Ho as [(e & H & _)|(a1 & H & Ho)]; [discriminate|]. injection H as <-.
  destruct Ho as [(e & _ & H)|(c & res & run & Ec & Hrun & Hr)]; [exfalso; subst r; eapply Hne'; eauto|].
  destruct Hrun as [(k & st & Hk & Hruns & Hdn & ->)|(k & st & e & _ & _ & _ & _ & ->)]; [|exfalso; cbn in Hr; subst r; eapply Hne'; eauto].
  cbn [bind] in Hr. set (s0 := mkState 0 a c res false extra) in *. assert (Ha0 : at_values E fs g s0 val) by (eapply fresh_at; eauto; split; [exact Ec | exists val; auto]).
  destruct (HP k s0 st Ha0 eq_refl eq_refl eq_refl Hruns Hdn) as (val' & (Hv1 & Hv2 & _) & Hp). pose proof (lin_holds E fs g WP Eg _ _ Hv1 Hv2) as Hh.
  destruct (update_back E CO fs (s_assign st) val' init val Hh Hi) as (a' & Eb & Ha'). exists a', val', k. split; [congruence|]. auto.
Qed.

Section Runs.
Variable E : env R.
Variable fs : list (factor R).
Variable g : graph R.
Variables (z : assign R) (valz : var -> pytree R) (rho m K f L : R).
Hypothesis ES : exact_solution E fs g z valz rho m K f L.
Variable eta : R.
Hypothesis Heta : 0 < eta < 1.
Notation grow := (grow rho m K f).
Notation size := (size rho K f).
Notation reach := (reach z rho m K f).

Definition halting (tau kap : R) (cfg : term_cfg R) (step : sstate R -> result (sstate R)) (X : sstate R -> Prop) : Prop :=
  forall s s', inside E fs g z rho tau s -> X s -> step s = Ok s' ->
    inside E fs g z rho tau s' /\ X s' /\ s_cost s' <= (1 - eta * (grow * kap)) * s_cost s /\ (told z m cfg s s' kap \/ s_cost s = 0) /\ s_iter s' = S (s_iter s).

Definition halts_well (sigma M kap : R) (cfg : term_cfg R) (step : sstate R -> result (sstate R)) (X : sstate R -> Prop) : Prop :=
  cost_tolerance cfg <= eta * (grow * kap) -> 0 <= parameter_tolerance cfg ->
  forall k s st val, at_values E fs g s val -> distance fs val valz <= sigma -> X s -> s_iter s = 0%nat -> s_done s = false -> runs step k s st -> s_done st = true ->
  exists val', at_values E fs g st val' /\ stopped_near fs cfg valz M (Rmax 0 (1 - eta * (grow * kap))) (reach kap) val val' k.

Lemma grow_pos : 0 < grow.
Proof.
  destruct ES as (Pr & (_ & _ & _ & _ & _ & _ & Pm & PK & _) & _ & Pf & _). destruct (size_pos rho K f Pr PK Pf) as (Ps & _).
  unfold PTrust.grow. assert (H : 0 < m * m / 2 / size) by (apply Rdiv_lt_0_compat; auto; nra). apply Rmult_lt_0_compat; auto.
Qed.

Lemma halting_runs : exists tau sigma M, (0 < tau /\ 3 * tau <= m * (rho / 2) /\ 2 * tau * L + L * L * (tau * tau / (m * m)) <= (1 - eta) * (m * m)) /\ 0 < sigma /\ 0 < M /\
  forall kap cfg step X, 0 < kap -> halting tau kap cfg step X -> halts_well sigma M kap cfg step X.
Proof.
  pose proof ES as (Pr & (HP & WP & Eg & Hza & Hzl & (cz & rz & Ez & Hreg) & Pm & PK & _ & Hrho) & (rz' & Ez0) & Pf & Hbd & PL & Htay). rewrite Ez in Ez0. injection Ez0 as -> <-.
  destruct (posed_graph E fs WP) as (Hne & _ & Hrd & _). pose proof WP as [CO Hok Hws _ _]. destruct (made E fs g Hok Eg) as (Hg & _). pose proof (lin_holds E fs g WP Eg z valz Hza Hzl) as Hz.
  destruct (size_pos rho K f Pr PK Pf) as (Ps & _). pose proof grow_pos as Pg.
  destruct (runs_good E fs g z valz rho m K f L ES eta Heta) as (tau & sigma & _ & Ht & Psig & _ & Hst & _). set (M := size * size / (m / 2 * (m / 2))).
  assert (Pm2 : 0 < m / 2 * (m / 2)) by (apply Rmult_lt_0_compat; lra). assert (PM : 0 < M) by (apply Rdiv_lt_0_compat; auto; apply Rmult_lt_0_compat; auto).
  exists tau, sigma, M. do 3 (split; auto). intros kap cfg step X Pk Hh Htol Hp k s st val Ha Hd HX Hi0 Hdn Hruns Hdone.
  set (th := Rmax 0 (1 - eta * (grow * kap))). assert (Pek : 0 < eta * (grow * kap)) by (apply Rmult_lt_0_compat; [lra | apply Rmult_lt_0_compat; auto]). assert (Hth : 0 <= th < 1) by (split; [apply Rmax_l | unfold th; apply Rmax_lub_lt; lra]).
  pose proof (Hst s val Ha Hd) as Hin. set (p := parameter_tolerance cfg) in *.
  assert (Hsz := inside_size E fs g HP CO Hok Eg Hg Hne Hrd Hws z valz rz rho m K f Hz Ez Pr Pm PK Pf Hrho Hreg Hbd tau).
  assert (Pre : 0 <= reach kap). { unfold PFinish.reach. pose proof (norm_pos (as_storage z)). assert (0 < m * m * kap) by (apply Rmult_lt_0_compat; auto; apply Rmult_lt_0_compat; auto).
    apply Rmult_le_pos; [apply Rmult_le_pos; [lra | left; apply Rinv_0_lt_compat; auto]|]. apply Rmult_le_pos; [apply Rmult_le_pos; [lra | left; apply Rinv_0_lt_compat; auto] | lra]. }
  assert (Pp : 0 <= p * (1 + p)) by (apply Rmult_le_pos; lra).
  assert (Hstep : forall s1 s2, (inside E fs g z rho tau s1 /\ X s1 /\ s_cost s1 <= th ^ s_iter s1 * s_cost s) -> step s1 = Ok s2 ->
    (inside E fs g z rho tau s2 /\ X s2 /\ s_cost s2 <= th ^ s_iter s2 * s_cost s) /\ s_iter s2 = S (s_iter s1) /\
    (s_done s2 = true -> (max_iterations cfg <= Z.of_nat (s_iter s2))%Z \/ (gradient_start cfg < Z.of_nat (s_iter s2))%Z \/ dist z (s_assign s2) <= reach kap * (p * (1 + p)))).
  { intros s1 s2 (I1 & I2 & I3) H. destruct (Hh s1 s2 I1 I2 H) as (J1 & J2 & J3 & J4 & J5). destruct (Hsz s1 I1) as (_ & _ & _ & Q1). split; [split; auto; split; auto|split; auto].
    - rewrite J5. cbn [pow]. eapply Rle_trans; [exact J3|]. apply Rle_trans with (th * s_cost s1); [apply Rmult_le_compat_r; auto; apply Rmax_r|]. rewrite Rmult_assoc. apply Rmult_le_compat_l; lra.
    - intros Hd2. rewrite J5. destruct J4 as [J4|J4].
      + apply (told_stop E fs g HP CO Hok Eg Hg Hne Hrd Hws z valz rz rho m K f Hz Ez Pr Pm PK Pf Hrho Hreg Hbd tau eta Heta cfg s1 s2 kap); auto. lra.
      + right; right. destruct (Hsz s2 J1) as (_ & Q2 & Q3 & Q4). rewrite J4, Rmult_0_r in J3. assert (dist z (s_assign s2) * dist z (s_assign s2) <= 0) by (apply (Rmult_le_reg_l (m / 2 * (m / 2))); auto; lra).
        assert (E0 : dist z (s_assign s2) = 0) by nra. rewrite E0. apply Rmult_le_pos; auto. }
  destruct (run_inv step _ _ Hstep k s st Hruns) as ((R1 & R2 & R3) & R4 & R5); auto. { split; auto. split; auto. rewrite Hi0. cbn [pow]. lra. }
  rewrite Hi0 in R4. cbn [plus] in R4. rewrite R4 in *. specialize (R5 Hdone). pose proof R1 as (Hf & _). pose proof Hf as (_ & val' & Hh').
  pose proof (fresh_at E fs g WP Eg st val' Hf Hh') as Ha'. exists val'. split; auto. unfold stopped_near. fold p. fold th.
  assert (HD : forall s0 v, at_values E fs g s0 v -> distance2 fs v valz = dist z (s_assign s0) * dist z (s_assign s0)).
  { intros s0 v Hv. rewrite (at_dist E fs g HP WP Eg z valz Hza Hzl s0 v Hv). unfold distance. rewrite sqrt_sqrt; auto. destruct Hv as (A1 & A2 & _). rewrite <- (pl_distance E fs HP CO _ _ _ _ (lin_holds E fs g WP Eg _ _ A1 A2) Hz). apply sumsq_nonneg. }
  split.
  - rewrite (HD st val' Ha'), (HD s val Ha). destruct (Hsz s Hin) as (K2 & _). destruct (Hsz st R1) as (_ & K1 & _). assert (Htk : 0 <= th ^ k) by (apply pow_le; lra).
    apply (Rmult_le_reg_l (m / 2 * (m / 2))); auto. set (e := dist z (s_assign s)) in *. set (e' := dist z (s_assign st)) in *. replace (m / 2 * (m / 2) * (M * th ^ k * (e * e))) with (th ^ k * (size * size * (e * e))) by (unfold M; field; lra).
    eapply Rle_trans; [exact K1|]. eapply Rle_trans; [exact R3|]. apply Rmult_le_compat_l; auto.
  - rewrite <- (at_dist E fs g HP WP Eg z valz Hza Hzl st val' Ha'). exact R5.
Qed.

Lemma told_less cfg s s' k k' : told z m cfg s s' k -> k' <= k -> told z m cfg s s' k'.
Proof. intros (ng & d & H1 & H2 & H3 & H4) Hk. exists ng, d. split; auto. split; auto. pose proof (sumsq_nonneg ng). assert (k' * sumsq ng <= k * sumsq ng) by (apply Rmult_le_compat_r; auto). lra. Qed.

Definition dl_kap (tau radius : R) : R := dl_rate f tau radius.
Lemma solvers_halt : 3 / 4 < eta -> exists sigma M, 0 < sigma /\ 0 < M /\
  (exists kap, 0 < kap /\ forall cfg, halts_well sigma M kap cfg (gn_step E cfg cholmod_solve g) (fun _ => True)) /\
  (forall lambda, 0 <= lambda -> exists kap, 0 < kap /\ forall cfg, 0 < lm_quality_min cfg <= eta -> 1 <= lambda_factor cfg -> 0 <= lambda_min cfg ->
     halts_well sigma M kap (lm_term cfg) (lm_step E cfg cholmod_solve g) (fun s => 0 <= s_extra s /\ (s_extra s <= lambda \/ s_cost s = 0))) /\
  (forall radius, 0 < radius -> exists kap, 0 < kap /\ forall cfg, 0 < dl_quality_min cfg <= eta ->
     halts_well sigma M kap (dl_term cfg) (dl_step E cfg cholmod_solve g) (fun s => 0 < s_extra s /\ (radius <= s_extra s \/ s_cost s = 0))).
Proof.
  intros H34. pose proof ES as (Pr & (HP & WP & Eg & Hza & Hzl & (cz & rz & Ez & Hreg) & Pm & PK & _ & Hrho) & (rz' & Ez0) & Pf & Hbd & PL & Htay). rewrite Ez in Ez0. injection Ez0 as -> <-.
  destruct (posed_graph E fs WP) as (Hne & _ & Hrd & _). pose proof WP as [CO Hok Hws _ _]. destruct (made E fs g Hok Eg) as (Hg & _). pose proof (lin_holds E fs g WP Eg z valz Hza Hzl) as Hz.
  destruct halting_runs as (tau & sigma & M & (Pt & T1 & T2) & Psig & PM & HH). exists sigma, M. split; auto. split; auto. pose proof grow_pos as Pg.
  assert (Pff : 0 <= f * f) by (apply Rmult_le_pos; auto). assert (Pl : 0 < Rlit 1 100000) by (unfold Rlit; lra).
  assert (Hsz := inside_size E fs g HP CO Hok Eg Hg Hne Hrd Hws z valz rz rho m K f Hz Ez Pr Pm PK Pf Hrho Hreg Hbd tau).
  assert (Hlk : forall l, 0 <= l -> 0 < lm_kap f l) by (intros l Hl; apply Rinv_0_lt_compat; lra).
  split; [|split].
  - exists (lm_kap f 0). split; [apply Hlk; lra|]. intros cfg. apply HH; [apply Hlk; lra|]. intros s s' Hin _ H.
    destruct (gn_iteration E fs g HP CO Hok Eg Hg Hne Hrd Hws z valz rz rho m K f L Hz Ez Pr Pm PK Pf PL Hrho Hreg Hbd Htay tau eta ltac:(lra) T1 T2 Heta cfg s s' Hin H) as (I1 & I2 & I3 & I4). do 4 (split; auto).
  - intros lambda Hl. exists (lm_kap f lambda). split; [apply Hlk; auto|]. intros cfg Hq Hfac Hmin. apply HH; [apply Hlk; auto|]. intros s1 s2 Hin (X1 & X2) H1.
    destruct (lm_iteration E fs g HP CO Hok Eg Hg Hne Hrd Hws z valz rz rho m K f L Hz Ez Pr Pm PK Pf PL Hrho Hreg Hbd Htay tau eta ltac:(lra) T1 T2 ltac:(lra) cfg s1 s2 Hin ltac:(lra) ltac:(lra) X1 H1) as (I1 & I2 & I3 & I4).
    destruct (lm_told E fs g HP CO Hok Eg Hg Hne Hrd Hws z valz rz rho m K f Hz Ez Pr Pm PK Pf Hrho Hreg Hbd tau eta cfg s1 s2 Hin ltac:(lra) ltac:(lra) X1 H1) as (Htd & Hit).
    destruct (taken_any E fs g z rho eta tau _ _ _ _ I3 I1) as (_ & J2). destruct (Hsz s1 Hin) as (_ & _ & _ & C1). destruct (Hsz s2 I1) as (_ & _ & _ & C2).
    assert (Hinv : 0 < / lambda_factor cfg <= 1) by (split; [apply Rinv_0_lt_compat; lra | rewrite <- Rinv_1; apply Rinv_le_contravar; lra]).
    assert (Hkk : s_extra s1 <= lambda -> lm_kap f lambda <= lm_kap f (s_extra s1)) by (intros Hle; apply Rinv_le_contravar; lra).
    split; auto. split; [|split; [|split; auto]].
    + split; [destruct I4 as [-> |I4]; [unfold Rdiv; apply Rmult_le_pos; lra | lra]|]. assert (H0 : s_cost s1 = 0 -> s_cost s2 = 0) by (intros Hc; rewrite Hc, Rmult_0_r in I2; lra).
      destruct X2 as [X2|X2]; [|right; auto]. destruct J2 as [J2|J2]; [left; rewrite J2; unfold Rdiv; nra | right; auto].
    + destruct X2 as [X2|X2]; [|rewrite X2, Rmult_0_r in *; auto]. eapply Rle_trans; [exact I2|]. apply Rmult_le_compat_r; auto. apply Rplus_le_compat_l, Ropp_le_contravar, Rmult_le_compat_l; [lra|].
      unfold Rdiv. apply Rmult_le_compat_l; [lra|]. apply Hkk. auto.
    + destruct X2 as [X2|X2]; [left; eapply told_less; eauto | right; auto].
  - intros radius Hr. assert (Pft : 0 < f * tau + 1) by (assert (0 <= f * tau) by (apply Rmult_le_pos; lra); lra).
    assert (Pk : 0 < dl_kap tau radius) by (apply Rmin_pos; [apply Rdiv_lt_0_compat; auto | apply Rinv_0_lt_compat; lra]).
    exists (dl_kap tau radius). split; auto. intros cfg Hq. apply HH; auto. intros s1 s2 Hin (X1 & X2) H1.
    destruct (dl_iteration E fs g HP CO Hok Eg Hg Hne Hrd Hws z valz rz rho m K f L Hz Ez Pr Pm PK Pf PL Hrho Hreg Hbd Htay tau eta ltac:(lra) T1 T2 ltac:(lra) cfg s1 s2 Hin ltac:(lra) ltac:(lra) H34 X1 H1) as (I1 & I2 & I3 & I4).
    destruct (dl_told E fs g HP CO Hok Eg Hg Hne Hrd Hws z valz rz rho m K f Hz Ez Pr Pm PK Pf Hrho Hreg Hbd tau eta ltac:(lra) Heta cfg s1 s2 Hin ltac:(lra) ltac:(lra) X1 H1) as (Htd & Hit).
    destruct (taken_any E fs g z rho eta tau _ _ _ _ I3 I1) as (_ & J2). destruct (Hsz s1 Hin) as (_ & _ & _ & C1). destruct (Hsz s2 I1) as (_ & _ & _ & C2).
    assert (Hkk : radius <= s_extra s1 -> dl_kap tau radius <= dl_rate f tau (s_extra s1)).
    { intros Hle. unfold dl_kap, dl_rate. apply Rmin_glb; [eapply Rle_trans; [apply Rmin_l|] | apply Rmin_r]. unfold Rdiv. apply Rmult_le_compat_r; [left; apply Rinv_0_lt_compat; auto | auto]. }
    split; auto. split; [|split; [|split; auto]].
    + split; auto. assert (H0 : s_cost s1 = 0 -> s_cost s2 = 0) by (intros Hc; rewrite Hc, Rmult_0_r in I2; lra).
      destruct X2 as [X2|X2]; [|right; auto]. destruct J2 as [J2|J2]; [left; lra | right; auto].
    + destruct X2 as [X2|X2]; [|rewrite X2, Rmult_0_r in *; auto]. eapply Rle_trans; [exact I2|]. apply Rmult_le_compat_r; auto. apply Rplus_le_compat_l, Ropp_le_contravar, Rmult_le_compat_l; [lra|]. apply Rmult_le_compat_l; [lra|]. auto.
    + destruct X2 as [X2|X2]; [left; eapply told_less; eauto | right; auto].
Qed.
End Runs.
