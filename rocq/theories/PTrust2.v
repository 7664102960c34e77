(* Runs of the trust-region solvers close to an exact fit. *)
From Coq Require Import List Arith Bool ZArith Lia Reals Lra Psatz.
From Verif Require Import Num NumR Py Arr MLayout MAssign MNoise MSparse MFactor MGraph MLinear MSolver SpecLayout SpecTree SpecAssign SpecGraph SpecSparse SpecDeriv SpecSolver SpecOrder SpecInv SpecLin SpecCgLin SpecDescent SpecLocal SpecTrust.
From Verif Require Import PBase PLayout PAssign PAssign2 PStack PGraph PGraph2 PGraph3 PGraph4 PVec PSparse PLinear PCg PCgConv PJac PGraph5 PLayout2 POrder POrder2 PHold PExGraph PSolver PSolver2 PInv PTotal PSolverR PDescent PLin PLinDl PLinCg PLocal PBasin4 PBasin5 PBasin6 PExInv PExLinDl PExLocal PTrust.
Import ListNotations.
Local Open Scope R_scope.

Section Runs.
Variable E : env R.
Variable fs : list (factor R).
Variable g : graph R.
Variables (z : assign R) (valz : var -> pytree R) (rho m K f L : R).
Hypothesis ES : exact_solution E fs g z valz rho m K f L.
Variable eta : R.
Hypothesis Heta : 0 < eta < 1.

Lemma tau_exists : exists tau, 0 < tau /\ 3 * tau <= m * (rho / 2) /\ 2 * tau * L + L * L * (tau * tau / (m * m)) <= (1 - eta) * (m * m).
Proof.
  destruct ES as (Pr & (_ & _ & _ & _ & _ & _ & Pm & _) & _ & _ & _ & PL & _). assert (Pmm : 0 < m * m) by (apply Rmult_lt_0_compat; auto).
  set (D := 2 * L + L * L / m + 1). assert (P0 : 0 <= L * L / m) by (apply Rmult_le_pos; [apply Rmult_le_pos; auto | left; apply Rinv_0_lt_compat; auto]). assert (PD : 0 < D) by (unfold D; lra).
  set (t3 := (1 - eta) * (m * m) / D). assert (P3 : 0 < t3) by (apply Rdiv_lt_0_compat; auto; apply Rmult_lt_0_compat; lra).
  assert (P1 : 0 < m * rho / 6) by (assert (0 < m * rho) by (apply Rmult_lt_0_compat; auto); lra).
  set (tau := Rmin (m * rho / 6) (Rmin m t3)). assert (T1 : tau <= m * rho / 6) by apply Rmin_l. assert (T2 : tau <= m) by (eapply Rle_trans; [apply Rmin_r | apply Rmin_l]). assert (T3 : tau <= t3) by (eapply Rle_trans; [apply Rmin_r | apply Rmin_r]).
  assert (Pt : 0 < tau) by (repeat apply Rmin_pos; auto). exists tau. split; auto. split; [lra|].
  assert (H1 : L * L * (tau * tau / (m * m)) <= L * L / m * tau).
  { replace (L * L / m * tau) with (L * L * (tau * m / (m * m))) by (field; lra). apply Rmult_le_compat_l; [apply Rmult_le_pos; auto|]. apply Rmult_le_compat_r; [left; apply Rinv_0_lt_compat; auto|]. apply Rmult_le_compat_l; lra. }
  assert (H2 : tau * D <= (1 - eta) * (m * m)). { apply (Rmult_le_compat_r D) in T3; [|lra]. unfold t3 in T3. replace ((1 - eta) * (m * m) / D * D) with ((1 - eta) * (m * m)) in T3 by (field; lra). auto. }
  unfold D in H2. lra.
Qed.

Let size := size rho K f.
Let grow := grow rho m K f.

Lemma runs_good : exists tau sigma M, (0 < tau /\ 3 * tau <= m * (rho / 2) /\ 2 * tau * L + L * L * (tau * tau / (m * m)) <= (1 - eta) * (m * m)) /\ 0 < sigma /\ 0 < M /\
  (forall s val, at_values E fs g s val -> distance fs val valz <= sigma -> inside E fs g z rho tau s) /\
  forall step qmin (X : sstate R -> Prop) kap, 0 < qmin <= eta -> 0 < kap -> 
  (forall s s', inside E fs g z rho tau s -> (X s) -> step g s = Ok s' ->
     inside E fs g z rho tau s' /\ X s' /\ s_cost s' <= (1 - eta * kap) * s_cost s /\
     step_taken E g z eta qmin s s' True) ->
  forall k s s' val, at_values E fs g s val -> distance fs val valz <= sigma -> X s -> iterate k (step g) s = Ok s' -> converging_run E fs g valz step qmin M (Rmax 0 (1 - eta * kap)) k s val s'.
Proof.
  pose proof ES as (Pr & (HP & WP & Eg & Hza & Hzl & (cz & rz & Ez & Hreg) & Pm & PK & _ & Hrho) & (rz' & Ez0) & Pf & Hbd & PL & Htay). rewrite Ez in Ez0. injection Ez0 as -> <-.
  destruct tau_exists as (tau & Ptau & T1 & T2). destruct (posed_graph E fs WP) as (Hne & _ & Hrd & _). pose proof WP as [CO Hok Hws _ _]. destruct (made E fs g Hok Eg) as (Hg & _).
  pose proof (lin_holds E fs g WP Eg z valz Hza Hzl) as Hz. destruct (size_pos rho K f Pr PK Pf) as (Ps & Ps'). fold size in Ps, Ps'.
  set (sigma := Rmin (rho / 2) (tau / size)). assert (Psig : 0 < sigma) by (apply Rmin_pos; [lra | apply Rdiv_lt_0_compat; auto]).
  (* the sizes of cost and distance at any point close by *)
  assert (Hsz : forall s val, at_values E fs g s val -> distance fs val valz <= rho / 2 -> s_cost s <= size * size * distance2 fs val valz /\ m / 2 * (m / 2) * distance2 fs val valz <= s_cost s /\ 0 <= s_cost s).
  { intros s val Ha Hd. pose proof (at_fresh E fs g WP Eg s val Ha) as Hf. rewrite <- (at_dist E fs g HP WP Eg z valz Hza Hzl s val Ha) in Hd.
    assert (Hrs : PTotal.ready E fs s). { destruct Hf as (Hcur & v & Hh). split; [exists v; auto|]. destruct (cost_total E CO fs g Hok Hg Hne Hws (s_assign s) (ex_intro _ v Hh)) as (c0 & r0 & E0 & L0). unfold current in Hcur. rewrite Hcur in E0. injection E0 as _ <-. auto. }
    destruct (jacobian_total E CO fs g Hok Hg Hrd Hws s Hrs) as (A & EA & HA & Hsh).
    assert (ET : matmul (transpose A) (vneg (s_res s)) = Ok (mapply (transpose A) (vneg (s_res s)))) by (apply matmul_mapply; auto using transpose_ok; cbn; rewrite Hsh, vneg_length; apply Hrs).
    destruct (sizes E fs g HP CO Hok Eg Hg Hne Hrd Hws z valz rz rho m K f Hz Ez Pr Pm PK Pf Hrho Hreg Hbd s A _ Hf EA Hd ET) as (S0 & S1 & S2 & _).
    assert (Ed : distance2 fs val valz = dist z (s_assign s) * dist z (s_assign s)).
    { rewrite (at_dist E fs g HP WP Eg z valz Hza Hzl s val Ha). unfold distance. rewrite sqrt_sqrt; auto.
      destruct Ha as (A1 & A2 & _). rewrite <- (pl_distance E fs HP CO _ _ _ _ (lin_holds E fs g WP Eg _ _ A1 A2) Hz). apply sumsq_nonneg. }
    pose proof (norm_pos (err z (s_assign s))) as De. change (0 <= dist z (s_assign s)) in De. rewrite Ed. set (e := dist z (s_assign s)) in *. destruct (vnorm_sq (s_res s)) as (R0 & R1). rewrite S0, <- R1.
    assert (H1 : vnorm (s_res s) <= size * e) by (eapply Rle_trans; [exact S1 | apply Rmult_le_compat_r; auto]). split; [|split].
    - replace (size * size * (e * e)) with ((size * e) * (size * e)) by ring. apply Rmult_le_compat; auto.
    - replace (m / 2 * (m / 2) * (e * e)) with ((m / 2 * e) * (m / 2 * e)) by ring. assert (0 <= m / 2 * e) by (apply Rmult_le_pos; lra). apply Rmult_le_compat; auto.
    - apply Rmult_le_pos; auto. }
  assert (Hstart : forall s val, at_values E fs g s val -> distance fs val valz <= sigma -> inside E fs g z rho tau s).
  { intros s val Ha Hd. assert (D1 : distance fs val valz <= rho / 2) by (eapply Rle_trans; [exact Hd | apply Rmin_l]). destruct (Hsz s val Ha D1) as (H1 & _). split; [eapply at_fresh; eauto|].
    rewrite (at_dist E fs g HP WP Eg z valz Hza Hzl s val Ha). split; auto. eapply Rle_trans; [exact H1|].
    assert (D2 : distance fs val valz * size <= tau). { assert (Hle : distance fs val valz <= tau / size) by (eapply Rle_trans; [exact Hd | apply Rmin_r]). apply (Rmult_le_compat_r size) in Hle; [|lra]. unfold Rdiv in Hle. rewrite Rmult_assoc, Rinv_l in Hle by lra. lra. }
    assert (D0 : 0 <= distance fs val valz) by apply sqrt_pos. assert (Ed : distance2 fs val valz = distance fs val valz * distance fs val valz).
    { unfold distance. rewrite sqrt_sqrt; auto. destruct Ha as (A1 & A2 & _). rewrite <- (pl_distance E fs HP CO _ _ _ _ (lin_holds E fs g WP Eg _ _ A1 A2) Hz). apply sumsq_nonneg. }
    rewrite Ed. set (e := distance fs val valz) in *. replace (size * size * (e * e)) with ((e * size) * (e * size)) by ring. assert (0 <= e * size) by (apply Rmult_le_pos; lra). apply Rmult_le_compat; auto. }
  set (M := size * size / (m / 2 * (m / 2))). assert (Pm2 : 0 < m / 2 * (m / 2)) by (apply Rmult_lt_0_compat; lra). assert (PM : 0 < M) by (apply Rdiv_lt_0_compat; auto; apply Rmult_lt_0_compat; auto).
  exists tau, sigma, M. do 3 (split; auto). split; auto. intros step qmin X kap Hq Hkap Hstep. set (th := Rmax 0 (1 - eta * kap)).
  assert (Pek : 0 < eta * kap) by (apply Rmult_lt_0_compat; lra). assert (Hth : 0 <= th < 1) by (split; [apply Rmax_l | unfold th; apply Rmax_lub_lt; lra]).
  fold th.
  assert (Hcost0 : forall s, inside E fs g z rho tau s -> 0 <= s_cost s /\ (s_cost s = 0 -> dist z (s_assign s) = 0) /\ forall val, at_values E fs g s val -> distance fs val valz <= rho / 2).
  { intros s (Hf & Hd & Hc). pose proof Hf as (_ & val & Hh). pose proof (fresh_at E fs g WP Eg s val Hf Hh) as Ha. assert (Hd' : distance fs val valz <= rho / 2) by (rewrite <- (at_dist E fs g HP WP Eg z valz Hza Hzl s val Ha); auto).
    destruct (Hsz s val Ha Hd') as (_ & H2 & H3). split; auto. split.
    - intros H0. rewrite (at_dist E fs g HP WP Eg z valz Hza Hzl s val Ha). unfold distance. assert (D0 : 0 <= distance2 fs val valz) by (rewrite <- (pl_distance E fs HP CO _ _ _ _ Hh Hz); apply sumsq_nonneg).
      replace (distance2 fs val valz) with 0; [apply sqrt_0 | nra].
    - intros val0 Ha0. rewrite <- (at_dist E fs g HP WP Eg z valz Hza Hzl s val0 Ha0). auto. }
  (* k iterations *)
  assert (Hk : forall k s s', inside E fs g z rho tau s -> X s -> iterate k (step g) s = Ok s' ->
    inside E fs g z rho tau s' /\ s_cost s' <= th ^ k * s_cost s /\ (s_cost s' = 0 \/ exists l, length l = k /\ accepted E g step qmin l s s')).
  { induction k as [|k IH]; intros s s' Hin HX H; cbn [iterate pow] in *.
    - injection H as <-. split; auto. split; [lra|]. right. exists []. split; auto. constructor.
    - apply bind_ok in H. destruct H as (s1 & H1 & H2). destruct (Hstep s s1 Hin HX H1) as (I1 & I2 & I3 & I4). destruct (IH s1 s' I1 I2 H2) as (J1 & J2 & J3). split; auto.
      destruct (Hcost0 s Hin) as (C0 & _). destruct (Hcost0 s1 I1) as (C1 & _). destruct (Hcost0 s' J1) as (C2 & _). assert (Htk : 0 <= th ^ k) by (apply pow_le; lra).
      assert (I3' : s_cost s1 <= th * s_cost s) by (eapply Rle_trans; [exact I3|]; apply Rmult_le_compat_r; auto; apply Rmax_r).
      assert (J2' : s_cost s' <= th * th ^ k * s_cost s) by (eapply Rle_trans; [exact J2|]; replace (th * th ^ k * s_cost s) with (th ^ k * (th * s_cost s)) by ring; apply Rmult_le_compat_l; auto). split; auto.
      destruct I4 as [(A & d & prop & c & r & q & Ht & Hle & _)|(Z1 & _)].
      + destruct J3 as [J3|(l & Hl & Hacc)]; [left; auto|]. right.
        assert (ET : exists ng, matmul (transpose A) (vneg (s_res s)) = Ok ng).
        { pose proof (tr_A _ _ _ _ _ _ _ _ _ _ _ Ht) as EA. destruct Hin as (Hf & _). destruct (ready_at E fs g CO Hok Eg Hws Hrd s A (fresh_ready E fs g s Hf) EA) as (HA & Hlr & _). eexists. apply matmul_mapply; auto using transpose_ok. }
        destruct ET as (ng & ET). exists ((A, ng, s_extra s) :: l). split; [cbn; auto|]. eapply acc_cons; eauto. lra.
      + left. rewrite Z1 in J2'. lra. }
  intros k s s' val Ha Hd HX H. destruct (Hk k s s' (Hstart s val Ha Hd) HX H) as (J1 & J2 & J3). pose proof J1 as (Hf & _). pose proof Hf as (_ & val' & Hh).
  pose proof (fresh_at E fs g WP Eg s' val' Hf Hh) as Ha'. destruct (Hcost0 s' J1) as (C1 & C2 & C3). specialize (C3 val' Ha'). exists val'. split; auto. split; auto.
  destruct (Hsz s' val' Ha' C3) as (_ & K1 & _). assert (D1 : distance fs val valz <= rho / 2) by (eapply Rle_trans; [exact Hd | apply Rmin_l]). destruct (Hsz s val Ha D1) as (K2 & _ & _).
  assert (D0 : 0 <= distance2 fs val' valz) by (rewrite <- (pl_distance E fs HP CO _ _ _ _ Hh Hz); apply sumsq_nonneg). assert (Htk : 0 <= th ^ k) by (apply pow_le; lra). split.
  - apply (Rmult_le_reg_l (m / 2 * (m / 2))); auto. replace (m / 2 * (m / 2) * (M * th ^ k * distance2 fs val valz)) with (th ^ k * (size * size * distance2 fs val valz)) by (unfold M; field; lra).
    eapply Rle_trans; [exact K1|]. eapply Rle_trans; [exact J2|]. apply Rmult_le_compat_l; auto.
  - destruct J3 as [J3|J3]; [left; split; auto; nra | right; auto].
Qed.

Lemma taken_any tau qmin s s' (P : Prop) : step_taken E g z eta qmin s s' P -> inside E fs g z rho tau s' -> step_taken E g z eta qmin s s' True /\ (P \/ s_cost s = 0).
Proof. intros [(A & d & prop & c & r & q & H1 & H2 & H3 & H4)|H] _; [split; [left; exists A, d, prop, c, r, q; auto | auto] | split; [right; auto | right; apply H]]. Qed.

Lemma both_runs : 3 / 4 < eta -> exists sigma M, 0 < sigma /\ 0 < M /\
  (forall lambda, 0 <= lambda -> exists th, 0 <= th < 1 /\ forall cfg k s val, 0 < lm_quality_min cfg <= eta -> 1 <= lambda_factor cfg -> 0 <= lambda_min cfg -> 0 <= s_extra s <= lambda ->
     at_values E fs g s val -> distance fs val valz <= sigma ->
     exists s', iterate k (lm_step E cfg cholmod_solve g) s = Ok s' /\ converging_run E fs g valz (lm_step E cfg cholmod_solve) (lm_quality_min cfg) M th k s val s') /\
  (forall radius, 0 < radius -> exists th, 0 <= th < 1 /\ forall cfg k s val, 0 < dl_quality_min cfg <= eta -> radius <= s_extra s ->
     at_values E fs g s val -> distance fs val valz <= sigma ->
     exists s', iterate k (dl_step E cfg cholmod_solve g) s = Ok s' /\ converging_run E fs g valz (dl_step E cfg cholmod_solve) (dl_quality_min cfg) M th k s val s').
Proof.
  intros H34. pose proof ES as (Pr & (HP & WP & Eg & Hza & Hzl & (cz & rz & Ez & Hreg) & Pm & PK & _ & Hrho) & (rz' & Ez0) & Pf & Hbd & PL & Htay). rewrite Ez in Ez0. injection Ez0 as -> <-.
  destruct (posed_graph E fs WP) as (Hne & _ & Hrd & Hpd). pose proof WP as [CO Hok Hws _ _]. destruct (made E fs g Hok Eg) as (Hg & _).
  pose proof (lin_holds E fs g WP Eg z valz Hza Hzl) as Hz. destruct runs_good as (tau & sigma & M & (Pt & T1 & T2) & Psig & PM & Hst & HR). exists sigma, M. split; auto. split; auto.
  destruct (size_pos rho K f Pr PK Pf) as (Ps & _). assert (Pgr : 0 < grow). { unfold grow, PTrust.grow. assert (H : 0 < m * m / 2 / PTrust.size rho K f) by (apply Rdiv_lt_0_compat; auto; nra). apply Rmult_lt_0_compat; auto. }
  assert (Pff : 0 <= f * f) by (apply Rmult_le_pos; auto). assert (Pl : 0 < Rlit 1 100000) by (unfold Rlit; lra).
  assert (Hcost : forall s, inside E fs g z rho tau s -> 0 <= s_cost s).
  { intros s (Hf & _). destruct Hf as (Hcur & v & Hh). unfold current in Hcur. destruct (cost_parts E g _ _ _ Hcur) as (_ & ->). apply sumsq_nonneg. }
  assert (Htot : forall step, (forall s, PTotal.ready E fs s -> exists s', step s = Ok s' /\ PTotal.ready E fs s') -> forall k s val, at_values E fs g s val -> exists s', iterate k step s = Ok s').
  { intros step Hs k s val Ha. destruct (PTotal.iterate_total E fs step Hs k s) as (s' & Es & _); eauto. pose proof (at_fresh E fs g WP Eg s val Ha) as (Hcur & v & Hh). split; [exists v; auto|]. destruct (cost_total E CO fs g Hok Hg Hne Hws (s_assign s) (ex_intro _ v Hh)) as (c0 & r0 & E0 & L0). unfold current in Hcur. rewrite Hcur in E0. injection E0 as _ <-. auto. }
  split.
  - intros lambda Hl. set (kap := grow / (f * f + (lambda + Rlit 1 100000))). assert (Pk : 0 < kap) by (apply Rdiv_lt_0_compat; auto; lra).
    (* each configuration separately: the rate does not depend on it *)
    exists (Rmax 0 (1 - eta * kap)).
    assert (Pek : 0 < eta * kap) by (apply Rmult_lt_0_compat; lra). split; [split; [apply Rmax_l | apply Rmax_lub_lt; lra]|].
    intros cfg k s val Hq Hfac Hmin Hx Ha Hd. destruct (Htot (lm_step E cfg cholmod_solve g)) with (k := k) (s := s) (val := val) as (s' & Es); auto.
    { intros s1 H1. eapply PTotal.lm_total; eauto using cholmod_total. }
    exists s'. split; auto. apply (HR (lm_step E cfg cholmod_solve) (lm_quality_min cfg) (fun s => 0 <= s_extra s /\ (s_extra s <= lambda \/ s_cost s = 0)) kap Hq Pk); auto; [|lra].
    intros s1 s2 Hin (X1 & X2) H1. destruct (lm_iteration E fs g HP CO Hok Eg Hg Hne Hrd Hws z valz rz rho m K f L Hz Ez Pr Pm PK Pf PL Hrho Hreg Hbd Htay tau eta ltac:(lra) T1 T2 ltac:(lra) cfg s1 s2 Hin ltac:(lra) ltac:(lra) X1 H1) as (I1 & I2 & I3 & I4).
    destruct (taken_any tau _ _ _ _ I3 I1) as (J1 & J2). pose proof (Hcost _ Hin) as C1. pose proof (Hcost _ I1) as C2. fold grow in I2.
    assert (Hinv : 0 < / lambda_factor cfg <= 1) by (split; [apply Rinv_0_lt_compat; lra | rewrite <- Rinv_1; apply Rinv_le_contravar; lra]).
    split; auto. split; [|split; auto].
    + split; [destruct I4 as [-> |I4]; [unfold Rdiv; apply Rmult_le_pos; lra | lra]|]. assert (H0 : s_cost s1 = 0 -> s_cost s2 = 0) by (intros Hc; rewrite Hc, Rmult_0_r in I2; lra).
      destruct X2 as [X2|X2]; [|right; auto]. destruct J2 as [J2|J2]; [left; rewrite J2; unfold Rdiv; nra | right; auto].
    + destruct X2 as [X2|X2]; [|rewrite X2, Rmult_0_r in *; auto]. eapply Rle_trans; [exact I2|]. apply Rmult_le_compat_r; auto. apply Rplus_le_compat_l, Ropp_le_contravar, Rmult_le_compat_l; [lra|].
      unfold kap, Rdiv. apply Rmult_le_compat_l; [lra|]. apply Rinv_le_contravar; lra.
  - intros radius Hr. set (kap := grow * dl_rate f tau radius).
    assert (Pft : 0 < f * tau + 1) by (assert (0 <= f * tau) by (apply Rmult_le_pos; lra); lra).
    assert (Pk : 0 < kap) by (apply Rmult_lt_0_compat; auto; apply Rmin_pos; [apply Rdiv_lt_0_compat; auto | apply Rinv_0_lt_compat; lra]).
    exists (Rmax 0 (1 - eta * kap)).
    assert (Pek : 0 < eta * kap) by (apply Rmult_lt_0_compat; lra). split; [split; [apply Rmax_l | apply Rmax_lub_lt; lra]|].
    intros cfg k s val Hq Hx Ha Hd. destruct (Htot (dl_step E cfg cholmod_solve g)) with (k := k) (s := s) (val := val) as (s' & Es); auto.
    { intros s1 H1. eapply PTotal.dl_total; eauto using cholmod_total. }
    exists s'. split; auto. apply (HR (dl_step E cfg cholmod_solve) (dl_quality_min cfg) (fun s => 0 < s_extra s /\ (radius <= s_extra s \/ s_cost s = 0)) kap Hq Pk); auto; [|split; [lra | left; auto]].
    intros s1 s2 Hin (X1 & X2) H1. destruct (dl_iteration E fs g HP CO Hok Eg Hg Hne Hrd Hws z valz rz rho m K f L Hz Ez Pr Pm PK Pf PL Hrho Hreg Hbd Htay tau eta ltac:(lra) T1 T2 ltac:(lra) cfg s1 s2 Hin ltac:(lra) ltac:(lra) H34 X1 H1) as (I1 & I2 & I3 & I4).
    destruct (taken_any tau _ _ _ _ I3 I1) as (J1 & J2). pose proof (Hcost _ Hin) as C1. pose proof (Hcost _ I1) as C2. fold grow in I2.
    split; auto. split; [|split; auto].
    + split; auto. assert (H0 : s_cost s1 = 0 -> s_cost s2 = 0) by (intros Hc; rewrite Hc, Rmult_0_r in I2; lra).
      destruct X2 as [X2|X2]; [|right; auto]. destruct J2 as [J2|J2]; [left; lra | right; auto].
    + destruct X2 as [X2|X2]; [|rewrite X2, Rmult_0_r in *; auto]. eapply Rle_trans; [exact I2|]. apply Rmult_le_compat_r; auto. apply Rplus_le_compat_l, Ropp_le_contravar, Rmult_le_compat_l; [lra|].
      unfold kap. apply Rmult_le_compat_l; [lra|]. unfold dl_rate. apply Rmin_glb; [eapply Rle_trans; [apply Rmin_l|] | apply Rmin_r]. unfold Rdiv. apply Rmult_le_compat_r; [left; apply Rinv_0_lt_compat; auto | auto].
Qed.
End Runs.
