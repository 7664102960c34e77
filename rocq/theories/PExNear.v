(* Bundled statements and concrete instances: convergence to the nearest minimiser. *)
From Coq Require Import List Arith Bool ZArith Lia Permutation Reals Lra.
From Verif Require Import Num NumR Py Arr MLayout MAssign MNoise MSparse MFactor MGraph MLinear MSolver SpecLayout SpecTree SpecAssign SpecGraph SpecSparse SpecDeriv SpecSolver SpecOrder SpecInv SpecLin SpecNear.
From Verif Require Import SpecTwin SpecBook.
From Verif Require Import PBase PLayout PTree PVec PSparse PAssign PAssign2 PGraph PGraph2 PHold PExGraph PSolver PSolver2 PSolverR PInv PTotal PLin PLinDl PNear Ex ExG ExS PExInv PExOrder PExSym PExLin PExLinDl PBook PExBook PFree.
Import ListNotations.
Local Open Scope R_scope.

Section Any.
Variable E : env R.
Variable fs : list (factor R).
Variable g : graph R.
Hypothesis LP : linear_problem E fs.
Hypothesis WP : well_posed E fs.
Hypothesis Eg : graph_make E fs = Ok g.
Notation L := (graph_layout E fs true).

(* the one Jacobian of the problem *)
Definition the_jacobian (A : coo R) : Prop :=
  coo_ok A /\ m_shape A = (total residual_dim fs, l_dim L) /\
  forall s, fresh E fs g s -> compute_whitened_residual_jacobian E g (s_assign s) (s_res s) = Ok A.

Lemma fresh_of a val c r x : holds E fs a val -> compute_cost E g a = Ok (c, r) -> fresh E fs g (mkState 0 a c r false x).
Proof. intros Ha Ec. split; [exact Ec | exists val; auto]. Qed.
Lemma default_holds : exists a val, holds E fs a val.
Proof.
  pose proof WP as [CO _ _ _ (v & Hv & _)].
  destruct (partial_values (e_cls E) CO (mentioned fs) [] (mentioned_nodup fs)) as (a & _ & Hwf & Hval & _); [intros H; rewrite H in Hv; destruct Hv | intros u x _ Hx; discriminate Hx|].
  destruct (update_holds E CO fs a (SpecAssign.lookup_or_default (e_cls E) [])) as (a' & _ & H); [|eauto]. exists (mentioned fs). split; auto. split; [tauto | auto].
Qed.
Lemma jacobian_exists : exists A, the_jacobian A.
Proof.
  destruct (posed_graph E fs WP) as (Hne & _ & Hrd & Hpd). pose proof WP as [CO Hok Hws _ _]. destruct (made E fs g Hok Eg) as (Hg & _).
  destruct default_holds as (a & val & Ha). destruct (cost_total E CO fs g Hok Hg Hne Hws a (ex_intro _ val Ha)) as (c0 & r0 & Ec & Hl).
  assert (Hr0 : ready E fs (mkState 0 a c0 r0 false 0)) by (split; [exists val; auto | auto]).
  destruct (jacobian_total E CO fs g Hok Hg Hrd Hws _ Hr0) as (A & EA & HA & Hsh). exists A. split; auto. split; auto.
  intros s (Hc & val' & Ha'). rewrite <- EA. cbn [s_assign s_res]. apply (lin_jacobian E fs g LP CO Hok Hg Hrd Hws _ val' _ val); auto.
  destruct (cost_total E CO fs g Hok Hg Hne Hws _ (ex_intro _ val' Ha')) as (c1 & r1 & Ec1 & Hl1). unfold current in Hc. rewrite Hc in Ec1. injection Ec1 as <- <-. auto.
Qed.

(* in the graph's layout *)
Lemma to_held z valz cz rz : is_minimum E fs g z valz cz rz -> exists z', holds E fs z' valz /\ compute_cost E g z' = Ok (cz, rz) /\
  forall b valb cb rb, holds E fs b valb -> compute_cost E g b = Ok (cb, rb) -> cz <= cb.
Proof.
  intros (Hz & Ez & Hmin). pose proof WP as [CO Hok Hws _ _]. destruct (update_holds E CO fs z valz Hz) as (z' & _ & Hz'). exists z'. split; auto. split.
  - rewrite <- Ez. apply (cost_values E fs g WP Eg z' z valz); auto. apply holds_assigns; auto.
  - intros b valb cb rb Hb Eb. apply (Hmin b valb cb rb); auto. apply holds_assigns; auto.
Qed.

Lemma distance_holds_sum a val b valb c valc : holds E fs a val -> holds E fs b valb -> holds E fs c valc ->
  vdot (vsub (as_storage b) (as_storage a)) (vsub (as_storage c) (as_storage b)) = 0 ->
  distance2 fs val valc = distance2 fs val valb + distance2 fs valb valc.
Proof.
  intros Ha Hb Hc H0. pose proof WP as [CO Hok Hws _ _].
  rewrite <- (held_distance E fs LP CO a val c valc Ha Hc), <- (held_distance E fs LP CO a val b valb Ha Hb), <- (held_distance E fs LP CO b valb c valc Hb Hc).
  pose proof (held_length E fs LP CO _ _ Ha) as La. pose proof (held_length E fs LP CO _ _ Hb) as Lb. pose proof (held_length E fs LP CO _ _ Hc) as Lc.
  assert (Es : vsub (as_storage c) (as_storage a) = vadd (vsub (as_storage b) (as_storage a)) (vsub (as_storage c) (as_storage b))).
  { apply (vec_ext (l_dim L)); [rewrite vsub_length; congruence | rewrite vadd_length; rewrite ?vsub_length; congruence|].
    intros u Hu. rewrite vdot_add_r by (rewrite !vsub_length; congruence). rewrite !vdot_sub_r by congruence. lra. }
  rewrite Es, sumsq_add by (rewrite !vsub_length; congruence). lra.
Qed.

(* the nearest minimiser: its difference from the start is orthogonal to the kernel *)
Lemma nearest_held A a val : the_jacobian A -> holds E fs a val ->
  exists z valz cz rz, holds E fs z valz /\ is_minimum E fs g z valz cz rz /\ ortho A (vsub (as_storage z) (as_storage a)) /\
    forall b valb cb rb, is_minimum E fs g b valb cb rb -> distance2 fs val valb = distance2 fs val valz + distance2 fs valz valb.
Proof.
  intros (HA & Hsh & HJ) Ha. destruct (posed_graph E fs WP) as (Hne & _ & Hrd & Hpd). pose proof WP as [CO Hok Hws _ _]. destruct (made E fs g Hok Eg) as (Hg & _).
  destruct (minimum_exists E fs g LP WP Eg a val (holds_assigns E fs a val Ha)) as (z0 & valz0 & cz & rz0 & Hmin0).
  destruct (to_held _ _ _ _ Hmin0) as (z' & Hz' & Ez' & Hm').
  destruct (cost_total E CO fs g Hok Hg Hne Hws a (ex_intro _ val Ha)) as (c0 & r0 & Ec & Hl).
  set (s := mkState 0 a c0 r0 false 0). assert (Hf : fresh E fs g s) by (apply (fresh_of a val); auto). pose proof (HJ s Hf) as EA.
  set (e := vsub (as_storage z') (as_storage a)).
  pose proof (held_length E fs LP CO _ _ Ha) as La. pose proof (held_length E fs LP CO _ _ Hz') as Lz.
  assert (Le : length e = snd (m_shape A)) by (unfold e; rewrite vsub_length, Hsh; cbn [snd]; congruence).
  destruct (row_part A HA e Le) as (p & Lp & Ep & Op).
  destruct (lin_move E fs g LP CO Hok Hg Hne Hrd Hws s A p Hf EA ltac:(rewrite Lp, Hsh; auto)) as (z & c & r & valz & _ & Ecz & Hz & Hc & Hr & Hst).
  destruct (min_gradient E fs g LP CO Hok Hg Hne Hrd Hws z' valz0 cz rz0 Hz' Ez' Hm' s A Hf EA) as (_ & Hcz & _). fold e in Hcz. cbn [s_assign s_res] in *. change (as_storage (s_assign s)) with (as_storage a) in Hcz. fold e in Hcz.
  assert (Hcc : c = cz) by (rewrite Hc, Hr, Hcz, Ep; auto). clear Hc. subst c.
  assert (Hzmin : is_minimum E fs g z valz cz r). { split; [apply holds_assigns; auto|]. split; auto. apply Hmin0. }
  assert (Hpd0 : vsub (as_storage z) (as_storage a) = p) by (rewrite Hst; apply add_sub; rewrite Lp, Hsh; cbn [snd]; congruence).
  exists z, valz, cz, r. split; auto. split; auto. split; [rewrite Hpd0; auto|].
  intros b valb cb rb Hb. destruct (to_held _ _ _ _ Hb) as (b' & Hb' & Eb' & Hmb').
  apply (distance_holds_sum a val z valz b' valb); auto. rewrite Hpd0. pose proof (held_length E fs LP CO _ _ Hb') as Lb. pose proof (held_length E fs LP CO _ _ Hz) as Lz2.
  apply Op; [rewrite vsub_length, Hsh; cbn [snd]; congruence|].
  (* both minimise: the gap is zero *)
  destruct (cost_total E CO fs g Hok Hg Hne Hws z (ex_intro _ valz Hz)) as (c2 & r2 & Ec2 & _). rewrite Ecz in Ec2. injection Ec2 as <- <-.
  assert (Hfz : fresh E fs g (mkState 0 z cz r false 0)) by (apply (fresh_of z valz); auto).
  pose proof (gap E fs g LP CO Hok Hg Hne Hrd Hws A Hsh HJ b' valb cb rb Hb' Eb' Hmb' _ Hfz) as Hgap. unfold dev in Hgap. cbn [s_cost s_assign] in Hgap.
  assert (cz <= cb) by (apply (Hm' b' valb cb rb); auto). assert (cb <= cz) by (apply (Hmb' z valz cz r); auto).
  assert (Hs0 : sumsq (mapply A (vsub (as_storage b') (as_storage z))) = 0) by lra. apply PVec.sumsq_zero in Hs0. rewrite Hs0, mapply_length. auto.
Qed.

(* every nearest minimiser is that one *)
Lemma nearest_ortho A a val z valz cz rz : the_jacobian A -> holds E fs a val -> nearest_minimum E fs g val z valz cz rz ->
  exists z', holds E fs z' valz /\ compute_cost E g z' = Ok (cz, rz) /\ (forall b valb cb rb, holds E fs b valb -> compute_cost E g b = Ok (cb, rb) -> cz <= cb) /\
    ortho A (vsub (as_storage z') (as_storage a)).
Proof.
  intros HA Ha (Hz & Hnear). pose proof WP as [CO Hok Hws _ _]. destruct (nearest_held A a val HA Ha) as (z1 & valz1 & c1 & r1 & Hh1 & Hmin1 & Ho & Hpy).
  specialize (Hnear _ _ _ _ Hmin1). specialize (Hpy _ _ _ _ Hz). destruct (to_held _ _ _ _ Hz) as (z' & Hz' & Ez' & Hm'). exists z'. do 3 (split; auto).
  assert (Hs : sumsq (vsub (as_storage z') (as_storage z1)) = 0).
  { rewrite (held_distance E fs LP CO z1 valz1 z' valz Hh1 Hz'). pose proof (distance2_nonneg fs valz1 valz). lra. }
  apply PVec.sumsq_zero in Hs. pose proof (held_length E fs LP CO _ _ Hz') as L1. pose proof (held_length E fs LP CO _ _ Hh1) as L2.
  assert (Ez : as_storage z' = as_storage z1).
  { apply (vec_ext (l_dim L)); auto. intros u Hu. assert (H : vdot u (vsub (as_storage z') (as_storage z1)) = 0) by (rewrite Hs; apply vdot_zero_r).
    rewrite vdot_sub_r in H by congruence. lra. }
  rewrite Ez. auto.
Qed.
End Any.

Lemma nearest_exists : forall (E : env R) fs g, linear_problem E fs -> well_posed E fs -> graph_make E fs = Ok g ->
  forall init val0, assigns E fs init val0 -> exists z valz cz rz, nearest_minimum E fs g val0 z valz cz rz /\
    forall b valb cb rb, is_minimum E fs g b valb cb rb -> distance2 fs val0 valb = distance2 fs val0 valz + distance2 fs valz valb.
Proof.
  intros E fs g LP WP Eg init val0 Hi. pose proof WP as [CO _ _ _ _]. destruct (jacobian_exists E fs g LP WP Eg) as (A & HA). destruct (update_holds E CO fs init val0 Hi) as (a & _ & Ha).
  destruct (nearest_held E fs g LP WP Eg A a val0 HA Ha) as (z & valz & cz & rz & Hh & Hm & _ & Hpy). exists z, valz, cz, rz. split; auto. split; auto.
  intros b valb cb rb Hb. rewrite (Hpy _ _ _ _ Hb). pose proof (distance2_nonneg fs valz valb). lra.
Qed.

Section Rate.
Variable E : env R.
Variable fs : list (factor R).
Variable g : graph R.
Hypothesis LP : linear_problem E fs.
Hypothesis WP : well_posed E fs.
Hypothesis Eg : graph_make E fs = Ok g.
Variable A : coo R.
Hypothesis HJ : the_jacobian E fs g A.
Variable mu : R.
Hypothesis Hmu : 0 < mu.
Hypothesis Hb : forall x, length x = snd (m_shape A) -> ortho A x -> mu * sumsq x <= sumsq (mapply A x).

Lemma rate_bound x : length x = l_dim (graph_layout E fs true) -> ortho A x -> mu * sumsq x <= sumsq (mapply A x).
Proof. intros Hx. apply Hb. destruct HJ as (_ & -> & _). auto. Qed.

Variables (a : assign R) (val : var -> pytree R) (c0 : R) (r0 : list R).
Hypothesis Ha : holds E fs a val.
Hypothesis Ec : compute_cost E g a = Ok (c0, r0).
Variables (z : assign R) (valz : var -> pytree R) (cz : R) (rz : list R).
Hypothesis Hz : nearest_minimum E fs g val z valz cz rz.

Lemma near_rate step (Q : sstate R -> Prop) extra k st :
  (forall s s', inv E fs g s -> Q s -> step s = Ok s' -> inv E fs g s' /\ Q s' /\ progress E fs g s s') ->
  0 <= extra -> Q (mkState 0 a c0 r0 false extra) -> iterate k step (mkState 0 a c0 r0 false extra) = Ok st ->
  exists vk, holds E fs (s_assign st) vk /\ distance2 fs vk valz <= shrink_rate mu (extra + 1 / 100000) ^ (2 * k) * distance2 fs val valz.
Proof.
  intros Hst Hx Hq Hr. destruct (posed_graph E fs WP) as (Hne & _ & Hrd & Hpd). pose proof WP as [CO Hok Hws _ _]. destruct (made E fs g Hok Eg) as (Hg & _).
  destruct (nearest_ortho E fs g LP WP Eg A a val z valz cz rz HJ Ha Hz) as (z' & Hz' & Ez' & Hm' & Ho). pose proof HJ as (HA & Hsh & HJ').
  assert (Hi : inv E fs g (mkState 0 a c0 r0 false extra)) by (split; [apply (fresh_of E fs g a val); auto | auto]).
  destruct (near_chain E fs g LP CO Hok Hg Hne Hrd Hws A HA Hsh HJ' z' valz cz rz Hz' Ez' Hm' mu Hmu rate_bound step Q Hst k _ st Hi Hq Ho Hr) as (((Hcur & vk & Hk) & _) & _ & Hd).
  exists vk. split; auto. unfold dev, damping in Hd. cbn [s_assign s_extra] in Hd. rewrite (held_distance E fs LP CO _ _ _ _ Hk Hz'), (held_distance E fs LP CO _ _ _ _ Ha Hz') in Hd. exact Hd.
Qed.
Lemma near_gn cfg k st : runs (gn_step E cfg cholmod_solve g) k (mkState 0 a c0 r0 false 0) st ->
  exists vk, holds E fs (s_assign st) vk /\ distance2 fs vk valz <= shrink_rate mu (1 / 100000) ^ (2 * k) * distance2 fs val valz.
Proof.
  intros Hr. destruct (posed_graph E fs WP) as (Hne & _ & Hrd & Hpd). pose proof WP as [CO Hok Hws _ _]. destruct (made E fs g Hok Eg) as (Hg & _).
  rewrite <- (Rplus_0_l (1 / 100000)). apply (near_rate (gn_step E cfg cholmod_solve g) (fun s => s_extra s = 0)); auto; [|lra | apply runs_iterate; auto].
  intros s s' H1 H2 H3. apply (gn_lin E fs g LP CO Hok Hg Hne Hrd Hws cfg); auto.
Qed.
Lemma near_fixed it k st : iterate k (fixed_step E it cholmod_solve g) (mkState 0 a c0 r0 false 0) = Ok st ->
  exists vk, holds E fs (s_assign st) vk /\ distance2 fs vk valz <= shrink_rate mu (1 / 100000) ^ (2 * k) * distance2 fs val valz.
Proof.
  intros Hr. destruct (posed_graph E fs WP) as (Hne & _ & Hrd & Hpd). pose proof WP as [CO Hok Hws _ _]. destruct (made E fs g Hok Eg) as (Hg & _).
  rewrite <- (Rplus_0_l (1 / 100000)). apply (near_rate (fixed_step E it cholmod_solve g) (fun s => s_extra s = 0)); auto; [|lra].
  intros s s' H1 H2 H3. apply (fixed_lin E fs g LP CO Hok Hg Hne Hrd Hws it); auto.
Qed.
Lemma near_lm cfg k st : 0 <= lambda_initial cfg -> 1 <= lambda_factor cfg -> 0 <= lambda_min cfg -> lm_quality_min cfg <= 1 ->
  runs (lm_step E cfg cholmod_solve g) k (mkState 0 a c0 r0 false (lambda_initial cfg)) st ->
  exists vk, holds E fs (s_assign st) vk /\ distance2 fs vk valz <= shrink_rate mu (lambda_initial cfg + 1 / 100000) ^ (2 * k) * distance2 fs val valz.
Proof.
  intros H1 H2 H3 H4 Hr. destruct (posed_graph E fs WP) as (Hne & _ & Hrd & Hpd). pose proof WP as [CO Hok Hws _ _]. destruct (made E fs g Hok Eg) as (Hg & _).
  apply (near_rate (lm_step E cfg cholmod_solve g) (fun s => True)); auto; [|apply runs_iterate; auto].
  intros s s' H5 _ H6. apply (lm_lin E fs g LP CO Hok Hg Hne Hrd Hws cfg); auto.
Qed.
Lemma near_dl cfg k st : 0 < radius_initial cfg -> dl_quality_min cfg <= 1 ->
  runs (dl_step E cfg cholmod_solve g) k (mkState 0 a c0 r0 false (radius_initial cfg)) st ->
  exists vk, holds E fs (s_assign st) vk /\ distance2 fs vk valz <= distance2 fs val valz /\
    forall K, distance2 fs val valz <= (3 ^ K * radius_initial cfg) * (3 ^ K * radius_initial cfg) ->
      distance2 fs vk valz <= shrink_rate mu (1 / 100000) ^ (2 * (k - K)) * distance2 fs val valz.
Proof.
  intros H1 H2 Hr. destruct (posed_graph E fs WP) as (Hne & _ & Hrd & Hpd). pose proof WP as [CO Hok Hws _ _]. destruct (made E fs g Hok Eg) as (Hg & _).
  destruct (nearest_ortho E fs g LP WP Eg A a val z valz cz rz HJ Ha Hz) as (z' & Hz' & Ez' & Hm' & Ho). pose proof HJ as (HA & Hsh & HJ').
  destruct (near_dogleg E fs g LP CO Hok Hg Hne Hrd Hws A HA Hsh HJ' z' valz cz rz Hz' Ez' Hm' mu Hmu rate_bound cfg H2 k _ st
    (fresh_of E fs g a val c0 r0 (radius_initial cfg) Ha Ec) H1 Ho (runs_iterate _ _ _ _ Hr)) as ((Hcur & vk & Hk) & _ & Hd & HK).
  exists vk. split; auto. unfold dev in Hd, HK. cbn [s_assign s_extra] in Hd, HK. rewrite (held_distance E fs LP CO _ _ _ _ Hk Hz'), (held_distance E fs LP CO _ _ _ _ Ha Hz') in Hd, HK. split; auto.
Qed.
End Rate.

Lemma ratio_bounds mu beta : 0 < mu -> 0 < beta -> 0 < shrink_rate mu beta < 1.
Proof. intros H H'. apply (ratio_pos mu H beta H'). Qed.

Lemma rate_exists E fs g : linear_problem E fs -> well_posed E fs -> graph_make E fs = Ok g ->
  exists A mu, the_jacobian E fs g A /\ 0 < mu /\ forall x, length x = snd (m_shape A) -> ortho A x -> mu * sumsq x <= sumsq (mapply A x).
Proof.
  intros LP WP Eg. destruct (jacobian_exists E fs g LP WP Eg) as (A & HA). destruct (bounded_below A (proj1 HA)) as (mu & H1 & H2). exists A, mu. auto.
Qed.

Lemma near_runs : forall (E : env R) fs g, linear_problem E fs -> well_posed E fs -> graph_make E fs = Ok g ->
  exists mu, 0 < mu /\ forall a val c0 r0 z valz cz rz, assigns E fs a val -> same_layout (as_layout a) (g_layout g) -> compute_cost E g a = Ok (c0, r0) ->
  nearest_minimum E fs g val z valz cz rz -> forall k st,
  (forall cfg, runs (gn_step E cfg cholmod_solve g) k (mkState 0 a c0 r0 false 0) st ->
     exists vk, assigns E fs (s_assign st) vk /\ distance2 fs vk valz <= shrink_rate mu (1 / 100000) ^ (2 * k) * distance2 fs val valz) /\
  (forall cfg, 0 <= lambda_initial cfg -> 1 <= lambda_factor cfg -> 0 <= lambda_min cfg -> lm_quality_min cfg <= 1 ->
     runs (lm_step E cfg cholmod_solve g) k (mkState 0 a c0 r0 false (lambda_initial cfg)) st ->
     exists vk, assigns E fs (s_assign st) vk /\ distance2 fs vk valz <= shrink_rate mu (lambda_initial cfg + 1 / 100000) ^ (2 * k) * distance2 fs val valz) /\
  (forall cfg, 0 < radius_initial cfg -> dl_quality_min cfg <= 1 ->
     runs (dl_step E cfg cholmod_solve g) k (mkState 0 a c0 r0 false (radius_initial cfg)) st ->
     exists vk, assigns E fs (s_assign st) vk /\ distance2 fs vk valz <= distance2 fs val valz /\
       forall K, distance2 fs val valz <= (3 ^ K * radius_initial cfg) * (3 ^ K * radius_initial cfg) ->
         distance2 fs vk valz <= shrink_rate mu (1 / 100000) ^ (2 * (k - K)) * distance2 fs val valz).
Proof.
  intros E fs g LP WP Eg. destruct (rate_exists E fs g LP WP Eg) as (A & mu & HA & Hmu & Hb). exists mu. split; auto.
  intros a val c0 r0 z valz cz rz Ha Hs Ec Hz k st. pose proof (lin_holds E fs g WP Eg a val Ha Hs) as Hh. split; [|split].
  - intros cfg Hr. destruct (near_gn E fs g LP WP Eg A HA mu Hmu Hb a val c0 r0 Hh Ec z valz cz rz Hz cfg k st Hr) as (vk & Hk & Hd). exists vk. split; auto. apply holds_assigns; auto.
  - intros cfg H1 H2 H3 H4 Hr. destruct (near_lm E fs g LP WP Eg A HA mu Hmu Hb a val c0 r0 Hh Ec z valz cz rz Hz cfg k st H1 H2 H3 H4 Hr) as (vk & Hk & Hd). exists vk. split; auto. apply holds_assigns; auto.
  - intros cfg H1 H2 Hr. destruct (near_dl E fs g LP WP Eg A HA mu Hmu Hb a val c0 r0 Hh Ec z valz cz rz Hz cfg k st H1 H2 Hr) as (vk & Hk & Hd). exists vk. split; auto. apply holds_assigns; auto.
Qed.

Section Solves.
Variable E : env R.
Variable fs : list (factor R).
Variable g : graph R.
Hypothesis WP : well_posed E fs.
Hypothesis Eg : graph_make E fs = Ok g.
Lemma near_solve (valz : var -> pytree R) step extra rho fuel init val0 a' : 0 < rho < 1 ->
  (forall a c0 r0 k st, holds E fs a val0 -> compute_cost E g a = Ok (c0, r0) -> runs (step g) k (mkState 0 a c0 r0 false extra) st ->
     exists vk, holds E fs (s_assign st) vk /\ distance2 fs vk valz <= rho ^ (2 * k) * distance2 fs val0 valz) ->
  assigns E fs init val0 -> solve_with E fuel step extra g init = Some (Ok a') ->
  exists v', assigns E fs a' v' /\ distance2 fs v' valz <= rho ^ 2 * distance2 fs val0 valz.
Proof.
  intros Hrho Hrun Hi H. pose proof WP as [CO Hok Hws _ _]. destruct (made E fs g Hok Eg) as (Hg & _).
  unfold solve_with in H. rewrite (ig_layout _ _ _ Hg) in H. destruct (update_holds E CO fs init val0 Hi) as (a & Eu & Ha). rewrite Eu in H.
  unfold init_state in H. destruct (compute_cost E g a) as [[c0 r0]|] eqn:Ec; cbn [bind fst snd] in H; [|discriminate].
  destruct (while_loop fuel _ (step g) _) as [[st|]|] eqn:Ew; try discriminate. injection H as H.
  destruct (while_runs _ _ _ _ Ew) as (k & _ & Hr & Hd).
  assert (Hk : (1 <= k)%nat). { destruct k; [|lia]. inversion Hr; subst. discriminate. }
  destruct (Hrun a c0 r0 k st Ha Ec Hr) as (vk & Hh & Hle).
  destruct (update_back E CO fs (s_assign st) vk init val0 Hh Hi) as (a1 & Eb & Ha1). rewrite H in Eb. injection Eb as <-. exists vk. split; auto.
  eapply Rle_trans; [exact Hle|]. apply Rmult_le_compat_r; [apply distance2_nonneg|]. replace (2 * k)%nat with (2 + 2 * (k - 1))%nat by lia. rewrite pow_add.
  assert (rho ^ (2 * (k - 1)) <= 1). { rewrite <- (pow1 (2 * (k - 1))). apply pow_incr. lra. }
  assert (0 <= rho ^ 2) by (apply pow_le; lra). nra.
Qed.
End Solves.

Lemma near_solves : forall (E : env R) fs g, linear_problem E fs -> well_posed E fs -> graph_make E fs = Ok g ->
  exists mu, 0 < mu /\ forall init val0 z valz cz rz, assigns E fs init val0 -> nearest_minimum E fs g val0 z valz cz rz ->
  (forall cfg fuel a', gn_solve E fuel cfg cholmod_solve g init = Some (Ok a') ->
     exists v', assigns E fs a' v' /\ distance2 fs v' valz <= shrink_rate mu (1 / 100000) ^ 2 * distance2 fs val0 valz) /\
  (forall cfg fuel a', 0 <= lambda_initial cfg -> 1 <= lambda_factor cfg -> 0 <= lambda_min cfg -> lm_quality_min cfg <= 1 ->
     lm_solve E fuel cfg cholmod_solve g init = Some (Ok a') ->
     exists v', assigns E fs a' v' /\ distance2 fs v' valz <= shrink_rate mu (lambda_initial cfg + 1 / 100000) ^ 2 * distance2 fs val0 valz) /\
  (forall fuel unroll it, same_layout (as_layout init) (g_layout g) -> (1 <= it)%Z -> (Z.to_nat it <= fuel)%nat ->
     exists a' v', fixed_solve E fuel unroll it cholmod_solve g init = Some (Ok a') /\ assigns E fs a' v' /\
       distance2 fs v' valz <= shrink_rate mu (1 / 100000) ^ (2 * Z.to_nat it) * distance2 fs val0 valz).
Proof.
  intros E fs g LP WP Eg. destruct (rate_exists E fs g LP WP Eg) as (A & mu & HA & Hmu & Hb). exists mu. split; auto.
  intros init val0 z valz cz rz Hi Hz. split; [|split].
  - intros cfg fuel a' H. apply (near_solve E fs g WP Eg valz (gn_step E cfg cholmod_solve) 0 (shrink_rate mu (1 / 100000)) fuel init val0 a'); auto; [apply ratio_bounds; lra|].
    intros a c0 r0 k st Ha Ec Hr. apply (near_gn E fs g LP WP Eg A HA mu Hmu Hb a val0 c0 r0 Ha Ec z valz cz rz Hz cfg k st Hr).
  - intros cfg fuel a' H1 H2 H3 H4 H. apply (near_solve E fs g WP Eg valz (lm_step E cfg cholmod_solve) (lambda_initial cfg) (shrink_rate mu (lambda_initial cfg + 1 / 100000)) fuel init val0 a'); auto; [apply ratio_bounds; lra|].
    intros a c0 r0 k st Ha Ec Hr. apply (near_lm E fs g LP WP Eg A HA mu Hmu Hb a val0 c0 r0 Ha Ec z valz cz rz Hz cfg k st H1 H2 H3 H4 Hr).
  - intros fuel unroll it Hs Hit Hf. destruct (posed_graph E fs WP) as (Hne & _ & Hrd & Hpd). pose proof WP as [CO Hok Hws _ _]. destruct (made E fs g Hok Eg) as (Hg & _).
    pose proof (lin_holds E fs g WP Eg init val0 Hi Hs) as Ha.
    destruct (cost_total E CO fs g Hok Hg Hne Hws init (ex_intro _ val0 Ha)) as (c0 & r0 & Ec & Hl).
    set (s0 := mkState 0 init c0 r0 false 0).
    assert (Hr0 : ready E fs s0) by (split; [exists val0; auto | auto]).
    destruct (iterate_total E fs (fixed_step E it cholmod_solve g) (fun s => fixed_total E CO fs g Hok Hg Hne Hrd Hws cholmod_solve cholmod_total it s) (Z.to_nat it) s0 Hr0) as (st & Est & Hst).
    destruct (near_fixed E fs g LP WP Eg A HA mu Hmu Hb init val0 c0 r0 Ha Ec z valz cz rz Hz it (Z.to_nat it) st Est) as (vk & Hk & Hd).
    exists (s_assign st), vk. split; [|split; [apply holds_assigns; auto | auto]].
    unfold fixed_solve, init_state. rewrite Ec. cbn [bind fst snd]. change n0 with 0. fold s0. rewrite Est.
    destruct unroll; [reflexivity|]. destruct (Z.to_nat it) as [|k] eqn:Ek; [lia|].
    rewrite (fixed_loop E cholmod_solve g it k fuel s0); auto; [rewrite Est; auto|]. cbn. lia.
Qed.

(* enough iterations bring the fixed-iteration solver within any distance of the nearest minimiser *)
Lemma near_limit : forall (E : env R) fs g, linear_problem E fs -> well_posed E fs -> graph_make E fs = Ok g ->
  forall init val0 z valz cz rz, assigns E fs init val0 -> same_layout (as_layout init) (g_layout g) -> nearest_minimum E fs g val0 z valz cz rz ->
  forall eps, 0 < eps -> exists N, (1 <= N)%Z /\ forall it fuel unroll, (N <= it)%Z -> (Z.to_nat it <= fuel)%nat ->
    exists a' v', fixed_solve E fuel unroll it cholmod_solve g init = Some (Ok a') /\ assigns E fs a' v' /\ distance2 fs v' valz < eps.
Proof.
  intros E fs g LP WP Eg init val0 z valz cz rz Hi Hs Hz eps He. destruct (near_solves E fs g LP WP Eg) as (mu & Hmu & Hn).
  destruct (Hn init val0 z valz cz rz Hi Hz) as (_ & _ & Hfix). pose proof (distance2_nonneg fs val0 valz) as HD. set (D := distance2 fs val0 valz) in *.
  destruct (ratio_bounds mu (1 / 100000) Hmu ltac:(lra)) as (P1 & P2).
  destruct (pow_lt_1_zero (shrink_rate mu (1 / 100000)) ltac:(rewrite Rabs_right; lra) (eps / (D + 1))) as (N & HN).
  { apply Rmult_lt_0_compat; auto. apply Rinv_0_lt_compat. lra. }
  exists (Z.of_nat (S N)). split; [lia|]. intros it fuel unroll Hit Hf. destruct (Hfix fuel unroll it Hs ltac:(lia) Hf) as (a' & v' & H1 & H2 & H3). exists a', v'. split; auto. split; auto.
  eapply Rle_lt_trans; [exact H3|]. specialize (HN (2 * Z.to_nat it)%nat ltac:(lia)). rewrite Rabs_right in HN by (apply Rle_ge, pow_le; lra).
  set (p := shrink_rate mu (1 / 100000) ^ (2 * Z.to_nat it)) in *. assert (0 <= p) by (apply pow_le; lra).
  assert (p * (D + 1) < eps). { apply (Rmult_lt_compat_r (D + 1)) in HN; [|lra]. unfold Rdiv in HN. rewrite Rmult_assoc, Rinv_l in HN by lra. lra. }
  nra.
Qed.

(* ---- what the factors do not measure ---- *)
Lemma free_steps : forall (E : env R) fs val old nu, well_posed E fs ->
  (forall v, In v (mentioned fs) -> value_ok (e_cls E (v_ty v)) (val v)) -> (forall v, In v (mentioned fs) -> value_ok (e_cls E (v_ty v)) (old v)) ->
  unseen_at E fs val nu ->
  (forall beta xi, 0 < beta -> damped_step E fs beta val old xi -> inner fs xi nu = 0) /\
  (forall radius xi, dogleg_point E fs radius val old xi -> inner fs xi nu = 0).
Proof.
  intros E fs val old nu WP Hv Ho Hu. split.
  - intros beta xi Hb Hd. apply (damped_orthogonal E fs WP beta val old); auto.
  - intros radius xi Hd. apply (dogleg_orthogonal E fs WP radius val old); auto.
Qed.

Lemma free_solves : forall (E : env R) fs g init val nu fuel, well_posed E fs -> graph_make E fs = Ok g -> assigns E fs init val ->
  (forall v, In v (mentioned fs) -> plain_class (e_cls E (v_ty v))) -> unseen E fs nu ->
  (forall cfg, (iteration_cap (max_iterations cfg) <= fuel)%nat ->
     exists a' val', gn_solve E fuel cfg cholmod_solve g init = Some (Ok a') /\ assigns E fs a' val' /\ component fs nu val' = component fs nu val) /\
  (forall unroll it, same_layout (as_layout init) (g_layout g) -> (1 <= it)%Z -> (Z.to_nat it <= fuel)%nat ->
     exists a' val', fixed_solve E fuel unroll it cholmod_solve g init = Some (Ok a') /\ assigns E fs a' val' /\ component fs nu val' = component fs nu val) /\
  (forall cfg, (iteration_cap (max_iterations (lm_term cfg)) <= fuel)%nat -> 0 < lambda_initial cfg -> 0 < lambda_factor cfg -> 0 < lambda_min cfg ->
     exists a' val', lm_solve E fuel cfg cholmod_solve g init = Some (Ok a') /\ assigns E fs a' val' /\ component fs nu val' = component fs nu val) /\
  (forall cfg, (iteration_cap (max_iterations (dl_term cfg)) <= fuel)%nat -> 0 < radius_initial cfg ->
     exists a' val', dl_solve E fuel cfg cholmod_solve g init = Some (Ok a') /\ assigns E fs a' val' /\ component fs nu val' = component fs nu val).
Proof.
  intros E fs g init val nu fuel WP Eg Hi Hp Hu. destruct (book_solves E fs g init val fuel WP Eg Hi) as (B1 & B2 & B3 & B4).
  assert (Hv : forall v, In v (mentioned fs) -> value_ok (e_cls E (v_ty v)) (val v)).
  { pose proof WP as [CO _ _ _ _]. destruct (update_holds E CO fs init val Hi) as (a & _ & Ha). apply (holds_legal E fs CO a val Ha). }
  split; [|split; [|split]].
  - intros cfg H. destruct (B1 cfg H) as (a' & k & val' & H1 & _ & H2 & H3). exists a', val'. split; auto. split; auto.
    apply (turns_keep (gauss_newton_turn E fs) (fun x => forall v, In v (mentioned fs) -> value_ok (e_cls E (v_ty v)) (x v)) (component fs nu)) with (k := k) (x := val); auto.
    intros x y Hx Ht. apply (gn_component E fs WP Hp nu Hu); auto.
  - intros unroll it Hs Hit Hf. destruct (B2 unroll it Hs Hit Hf) as (a' & val' & H1 & H2 & H3). exists a', val'. split; auto. split; auto.
    apply (turns_keep (gauss_newton_turn E fs) (fun x => forall v, In v (mentioned fs) -> value_ok (e_cls E (v_ty v)) (x v)) (component fs nu)) with (k := Z.to_nat it) (x := val); auto.
    intros x y Hx Ht. apply (gn_component E fs WP Hp nu Hu); auto.
  - intros cfg H L1 L2 L3. destruct (B3 cfg H L1 L2 L3) as (a' & k & b' & H1 & _ & H2 & H3). exists a', (b_val b'). split; auto. split; auto.
    apply (turns_keep (lm_turn E fs cfg) (fun b => fine E fs b /\ 0 <= b_extra b) (fun b => component fs nu (b_val b))) with (k := k) (x := mkBook val val (lambda_initial cfg)); auto; [|split; [split; auto | cbn; lra]].
    intros b b1 (Hf & Hx) Ht. destruct (lm_component E fs WP Hp nu Hu cfg b b1 Hx Hf Ht) as (F1 & F2). split; auto. split; auto.
    destruct Ht as (xi & p & _ & _ & [(_ & ->)|(_ & ->)]); cbn; [apply Rmult_le_pos; auto; apply Rlt_le, Rinv_0_lt_compat; auto | eapply Rle_trans; [|apply Rmax_l]; lra].
  - intros cfg H L1. destruct (B4 cfg H L1) as (a' & k & b' & H1 & _ & H2 & H3). exists a', (b_val b'). split; auto. split; auto.
    apply (turns_keep (dogleg_turn E fs cfg) (fine E fs) (fun b => component fs nu (b_val b))) with (k := k) (x := mkBook val val (radius_initial cfg)); auto; [|split; auto].
    intros b b1 Hf Ht. apply (dl_component E fs WP Hp nu Hu cfg b b1 Hf Ht).
Qed.

(* ---- a single relative measurement y - x = 2: nothing determines the mean of x and y ---- *)
Definition link_fs : list (factor R) := [mkFactor 22 [vx; vy] (DiagGaussian (mkArr [1%nat] [2])) [leaf1 [2]]].
Definition two_of (x y : R) : var -> pytree R := fun v => if Nat.eqb (v_id v) 0 then leaf1 [x] else leaf1 [y].

Lemma two_assigns E fs x y : e_cls E = exC -> mentioned fs = [vx; vy] -> assigns E fs (scalars [vx; vy] [x; y]) (two_of x y).
Proof.
  intros H H'. unfold assigns. rewrite H, H'.
  exists [vx; vy]. split; [split; [repeat constructor; simpl; intuition discriminate | split; reflexivity]|]. split; [intros v; reflexivity|]. intros v [<-|[<-|[]]]; reflexivity.
Qed.
Lemma two_values E fs b valb : e_cls E = exC -> mentioned fs = [vx; vy] -> classes_ok exC -> assigns E fs b valb -> exists x y, valb vx = leaf1 [x] /\ valb vy = leaf1 [y].
Proof.
  intros H H' CO (vs & Hwf & Hvs & Hval). rewrite H in *. rewrite H' in Hvs.
  assert (Hl : forall v, In v [vx; vy] -> value_ok (exC (v_ty v)) (valb v)).
  { intros v Hin. destruct (get_value_ok _ CO vs b v Hwf) as (x & Ex & Hx & _); [apply Hvs; auto|]. rewrite Hval in Ex by (apply Hvs; auto). injection Ex as ->. auto. }
  destruct (scalar_shape _ (Hl vx (or_introl eq_refl))) as (x & Ex). destruct (scalar_shape _ (Hl vy (or_intror (or_introl eq_refl)))) as (y & Ey). eauto.
Qed.
Lemma two_cost E fs g b valb x y : e_cls E = exC -> mentioned fs = [vx; vy] -> well_posed E fs -> graph_make E fs = Ok g -> assigns E fs b valb ->
  valb vx = leaf1 [x] -> valb vy = leaf1 [y] -> compute_cost E g b = compute_cost E g (scalars [vx; vy] [x; y]).
Proof.
  intros H H' WP Eg Hb Hx Hy. apply (cost_values E fs g WP Eg _ _ valb Hb). unfold assigns. rewrite H, H'.
  exists [vx; vy]. split; [split; [repeat constructor; simpl; intuition discriminate | split; reflexivity]|]. split; [intros v; reflexivity|]. intros v [<-|[<-|[]]]; rewrite ?Hx, ?Hy; reflexivity.
Qed.
Lemma two_distance fs val val' x y x' y' : mentioned fs = [vx; vy] -> val vx = leaf1 [x] -> val vy = leaf1 [y] -> val' vx = leaf1 [x'] -> val' vy = leaf1 [y'] ->
  distance2 fs val val' = (x' - x) * (x' - x) + (y' - y) * (y' - y).
Proof. intros H H1 H2 H3 H4. unfold distance2. rewrite H. simpl map. rewrite H1, H2, H3, H4. comp. lra. Qed.

Lemma link_linear : linear_problem exLE link_fs.
Proof.
  pose proof chain_linear as [P1 P2 P3 P4]. assert (Hi : forall f, In f link_fs -> In f chain_fs) by (intros f [<-|[]]; right; left; auto).
  split; auto.
Qed.
Lemma link_posed : well_posed exLE link_fs.
Proof.
  pose proof chain_posed as [P1 P2 P3 P4 P5]. assert (Hi : forall f, In f link_fs -> In f chain_fs) by (intros f [<-|[]]; right; left; auto).
  split; auto.
  - destruct P3 as [W1 W2 W3]. split; auto.
  - exists (mkFactor 22 [vx; vy] (DiagGaussian (mkArr [1%nat] [2])) [leaf1 [2]]). split; [left; auto | discriminate].
Qed.
Lemma link_unseen : unseen exLE link_fs (fun _ => [1]).
Proof.
  intros val Hv. split; [intros v [<-|[<-|[]]]; reflexivity|]. intros f [<-|[]]. comp. f_equal. lra.
Qed.
Lemma link_example : linear_problem exLE link_fs /\ well_posed exLE link_fs /\ unseen exLE link_fs (fun _ => [1]) /\
  exists g, graph_make exLE link_fs = Ok g /\ assigns exLE link_fs (scalars [vx; vy] [0; 0]) (two_of 0 0) /\
    same_layout (as_layout (scalars [vx; vy] [0; 0])) (g_layout g) /\
    exists rz, nearest_minimum exLE link_fs g (two_of 0 0) (scalars [vx; vy] [-1; 1]) (two_of (-1) 1) 0 rz.
Proof.
  split; [exact link_linear|]. split; [exact link_posed|]. split; [exact link_unseen|].
  destruct (graph_make exLE link_fs) as [g|] eqn:Eg; [|discriminate]. exists g. split; auto. split; [apply two_assigns; reflexivity|].
  split; [injection Eg as <-; repeat split; reflexivity|].
  assert (Hc : forall x y, exists c r, compute_cost exLE g (scalars [vx; vy] [x; y]) = Ok (c, r) /\ c = (2 * (y - x - 2)) * (2 * (y - x - 2))).
  { intros x y. injection Eg as <-. do 2 eexists. split; [comp; reflexivity|]. unfold Rlit. rewrite <- ?Rminus_0_l. lra. }
  destruct (Hc (-1) 1) as (c & r & Ec & Hv). exists r. split.
  - split; [apply two_assigns; reflexivity|]. split; [rewrite Ec; do 3 f_equal; lra|]. intros b valb cb rb Hb Eb.
    destruct (two_values exLE link_fs b valb eq_refl eq_refl (wp_classes _ _ link_posed) Hb) as (x & y & Hx & Hy).
    rewrite (two_cost exLE link_fs g b valb x y) in Eb by (auto; apply link_posed). destruct (Hc x y) as (c' & r' & Ec' & ->). rewrite Ec' in Eb. injection Eb as <- <-. apply Rle_0_sqr.
  - intros b valb cb rb (Hb & Eb & Hm).
    destruct (two_values exLE link_fs b valb eq_refl eq_refl (wp_classes _ _ link_posed) Hb) as (x & y & Hx & Hy).
    rewrite (two_cost exLE link_fs g b valb x y) in Eb by (auto; apply link_posed). destruct (Hc x y) as (c' & r' & Ec' & ->). rewrite Ec' in Eb. injection Eb as <- <-.
    specialize (Hm _ _ _ _ (two_assigns exLE link_fs (-1) 1 eq_refl eq_refl) Ec). rewrite Hv in Hm.
    rewrite (two_distance link_fs (two_of 0 0) (two_of (-1) 1) 0 0 (-1) 1), (two_distance link_fs (two_of 0 0) valb 0 0 x y) by (auto; reflexivity).
    assert (y - x - 2 = 0) by nra. assert (y = x + 2) by lra. subst y. pose proof (Rle_0_sqr (x + 1)). unfold Rsqr in *. lra.
Qed.

(* ---- x + 2 y = 5 ---- *)
Definition exWE : env R := mkEnv exC
  (fun fd vals => match vals with [x; y] => vsub (vadd (ravel x) (vscale 2 (ravel y))) (par fd) | _ => [] end)
  (fun fd vals => [[[1]]; [[2]]]).
Definition weighted : list (factor R) := [mkFactor 23 [vx; vy] (DiagGaussian (mkArr [1%nat] [1])) [leaf1 [5]]].
Lemma weighted_cg : exists g, graph_make exWE weighted = Ok g /\
  fixed_solve exWE 1 true 1 (conjugate_gradient_solver (1 / 100000)) g (scalars [vx; vy] [0; 0]) = Some (Ok (scalars [vx; vy] [5/2; 5/4])).
Proof.
  eexists. split; [reflexivity|]. 

  comp.
  match goal with |- context [Rltb ?a ?b] => replace (Rltb a b) with true end.
  2:{ symmetry. apply Rltb_ok. rewrite Rmax_left by lra. lra. }
  match goal with |- context [Rltb ?a ?b] => let H := fresh in assert (H : b = 0) by (field; lra); rewrite H; replace (Rltb a 0) with false end.
  2:{ symmetry. apply Rltb_no. eapply Rle_trans; [|apply Rmax_r]. lra. }
  cbv iota beta. do 4 f_equal; [field; lra|]. f_equal. field; lra.
Qed.

Lemma weighted_posed : well_posed exWE weighted.
Proof.
  split.
  - exact (wp_classes _ _ chain_posed).
  - intros f [<-|[]]; (split; [split; [reflexivity | exists 1%nat; reflexivity] | repeat constructor]).
  - split.
    + intros val f Hv Hf. assert (Hx : exists x, val vx = leaf1 [x]) by (apply scalar_shape, (Hv vx); left; auto).
      assert (Hy : exists x, val vy = leaf1 [x]) by (apply scalar_shape, (Hv vy); right; left; auto). destruct Hx as (x & Ex), Hy as (y & Ey).
      destruct Hf as [<-|[]]; unfold residual_shape_ok, residual_at; simpl map; rewrite ?Ex, ?Ey; reflexivity.
    + intros val f Hv [<-|[]]; repeat constructor.
    + intros v x d [<-|[<-|[]]] Hx' Hd; destruct (scalar_shape x Hx') as (r & ->);
      (destruct d as [|e [|? ?]]; try discriminate Hd; eexists; (split; [reflexivity | split; repeat constructor])).
  - eexists. split; [left; reflexivity | discriminate].
  - exists vx. split; [left; auto | discriminate].
Qed.
Lemma weighted_linear : linear_problem exWE weighted.
Proof.
  split.
  - intros v [<-|[<-|[]]]; split; reflexivity.
  - intros f [<-|[]]; exact I.
  - intros f val val' [<-|[]] _ _; reflexivity.
  - intros f val val' [<-|[]] Hl Hl'; unfold residual_at, jacobians_at, jacobian_times_change; cbn [map f_vars zipw jacobians_at e_jac exWE anonymize fd_cls f_cls fold_right].
    assert (Hs : forall w v, legal_for exWE (mkFactor 23 [vx; vy] (DiagGaussian (mkArr [1%nat] [1])) [leaf1 [5]]) w -> In v [vx; vy] -> exists r, w v = leaf1 [r]).
    { intros w v H Hv. specialize (H v Hv). destruct Hv as [<-|[<-|[]]]; apply scalar_shape in H; auto. }
    destruct (Hs val vx Hl (or_introl eq_refl)) as (r & ->). destruct (Hs val' vx Hl' (or_introl eq_refl)) as (r' & ->).
    destruct (Hs val vy Hl (or_intror (or_introl eq_refl))) as (q & ->). destruct (Hs val' vy Hl' (or_intror (or_introl eq_refl))) as (q' & ->).
    comp. unfold Rlit. f_equal. lra.
Qed.
(* conjugate gradients end at the minimiser (5/2, 5/4); the nearest one is (1, 2) *)
Lemma cg_elsewhere : exists (E : env R) fs g init val z valz cz rz nu a' val' c r, linear_problem E fs /\ well_posed E fs /\ graph_make E fs = Ok g /\
  assigns E fs init val /\ nearest_minimum E fs g val z valz cz rz /\ unseen E fs nu /\
  fixed_solve E 1 true 1 (conjugate_gradient_solver (1 / 100000)) g init = Some (Ok a') /\ assigns E fs a' val' /\ is_minimum E fs g a' val' c r /\
  component fs nu val' <> component fs nu val /\ 1 < distance2 fs val' valz.
Proof.
  destruct weighted_cg as (g & Eg & Hs).
  assert (Hc : forall x y, exists c r, compute_cost exWE g (scalars [vx; vy] [x; y]) = Ok (c, r) /\ c = (x + 2 * y - 5) * (x + 2 * y - 5)).
  { intros x y. injection Eg as <-. do 2 eexists. split; [comp; reflexivity|]. unfold Rlit. rewrite <- ?Rminus_0_l. lra. }
  destruct (Hc 1 2) as (c & r & Ec & Hv). destruct (Hc (5/2) (5/4)) as (c2 & r2 & Ec2 & Hv2). assert (c = 0) by lra. assert (c2 = 0) by lra. clear Hv Hv2. subst c c2.
  assert (Hmin : forall b valb cb rb, assigns exWE weighted b valb -> compute_cost exWE g b = Ok (cb, rb) -> 0 <= cb).
  { intros b valb cb rb Hb Eb. destruct (two_values exWE weighted b valb eq_refl eq_refl (wp_classes _ _ weighted_posed) Hb) as (x & y & Hx & Hy).
    rewrite (two_cost exWE weighted g b valb x y) in Eb by (auto; apply weighted_posed). destruct (Hc x y) as (c' & r' & Ec' & ->). rewrite Ec' in Eb. injection Eb as <- <-. apply Rle_0_sqr. }
  exists exWE, weighted, g, (scalars [vx; vy] [0; 0]), (two_of 0 0), (scalars [vx; vy] [1; 2]), (two_of 1 2), 0, r, (fun v => if Nat.eqb (v_id v) 0 then [2] else [-1]),
    (scalars [vx; vy] [5/2; 5/4]), (two_of (5/2) (5/4)), 0, r2.
  split; [exact weighted_linear|]. split; [exact weighted_posed|]. split; auto. split; [apply two_assigns; reflexivity|]. split; [|split; [|split; [|split; [|split; [|split]]]]].
  - split.
    + split; [apply two_assigns; reflexivity|]. split; auto.
    + intros b valb cb rb (Hb & Eb & Hm). specialize (Hm _ _ _ _ (two_assigns exWE weighted 1 2 eq_refl eq_refl) Ec).
      destruct (two_values exWE weighted b valb eq_refl eq_refl (wp_classes _ _ weighted_posed) Hb) as (x & y & Hx & Hy).
      rewrite (two_cost exWE weighted g b valb x y) in Eb by (auto; apply weighted_posed). destruct (Hc x y) as (c' & r' & Ec' & ->). rewrite Ec' in Eb. injection Eb as <- <-.
      rewrite (two_distance weighted (two_of 0 0) (two_of 1 2) 0 0 1 2), (two_distance weighted (two_of 0 0) valb 0 0 x y) by (auto; reflexivity).
      assert (x + 2 * y - 5 = 0) by nra. assert (x = 5 - 2 * y) by lra. subst x. pose proof (Rle_0_sqr (y - 2)). unfold Rsqr in *. lra.
  - intros val Hval. split; [intros v [<-|[<-|[]]]; reflexivity|]. intros f [<-|[]]. comp. f_equal. lra.
  - exact Hs.
  - apply two_assigns; reflexivity.
  - split; [apply two_assigns; reflexivity|]. split; auto.
  - comp. lra.
  - rewrite (two_distance weighted _ _ (5/2) (5/4) 1 2) by reflexivity. lra.
Qed.
