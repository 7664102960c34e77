(* Lemmas and concrete instances for C112. *)
From Coq Require Import List Arith Bool ZArith Lia Permutation Reals Lra Psatz.
From Verif Require Import Num NumR Py Arr MLayout MAssign MNoise MSparse MFactor MGraph MLinear MSolver SpecLayout SpecTree SpecAssign SpecGraph SpecSparse SpecSolver SpecOrder SpecInv SpecDescent SpecCgLin SpecLocal SpecBook SpecLin SpecFall SpecGate.
From Verif Require Import PTotal PLin PExSym PExLin PLinDl PExLinTr PExNear.
From Verif Require Import PBase PLayout PTree PAssign PAssign2 PGraph PGraph2 PVec PSparse PSolver PSolver2 PSolverR PHold PInv PBook PDescent PExGraph Ex ExG ExS PExInv PExSolver PExOrder PExDescent PExLinDl PExSettle.
Import ListNotations.
Local Open Scope R_scope.

Lemma gate_low m q d n n' : 0 < m -> 0 <= q -> 0 <= d -> 0 <= n -> 0 <= n' -> n <= n' + q * d -> n * n * m / (m + q * q) <= m * (d * d) + n' * n'.
Proof.
  intros Hm Hq Hd Hn Hn' H. assert (0 < m + q * q) by nra. assert (0 <= q * d) by (apply Rmult_le_pos; auto). apply Rmult_le_reg_r with (m + q * q); auto.
  replace (n * n * m / (m + q * q) * (m + q * q)) with (m * (n * n)) by (field; lra).
  assert (m * (n * n) <= m * ((n' + q * d) * (n' + q * d))) by (apply Rmult_le_compat_l; [lra | apply Rmult_le_compat; lra]).
  pose proof (Rle_0_sqr (m * d - q * n')) as P. unfold Rsqr in P. nra.
Qed.
Lemma gate_far m q d n n' : 0 < m -> 0 <= q -> 0 <= d -> 0 <= n -> 0 <= n' -> n <= n' + q * d -> m * (d * d) + n' * n' <= n * n -> q * q <= m -> (m + q * q) * d <= 2 * (q * n).
Proof.
  intros Hm Hq Hd Hn Hn' H Hc Hqm. destruct (Req_dec d 0) as [->|Hd0]; [assert (0 <= q * n) by (apply Rmult_le_pos; auto); lra|].
  assert (Hqd : q * d <= n). { assert (0 <= q * d) by (apply Rmult_le_pos; auto). apply Rsqr_incr_0; auto. unfold Rsqr. assert (q * q * (d * d) <= m * (d * d)) by (apply Rmult_le_compat_r; auto; nra). nra. }
  assert ((n - q * d) * (n - q * d) <= n' * n') by (apply Rmult_le_compat; lra).
  apply Rmult_le_reg_r with d; [lra|]. nra.
Qed.

Section Gate.
Variable E : env R.
Variables (fs : list (factor R)) (f : factor R) (g g' : graph R).
Hypothesis WP : well_posed E fs.
Hypothesis WP' : well_posed E (fs ++ [f]).
Hypothesis Hment : mentioned (fs ++ [f]) = mentioned fs.
Hypothesis Eg : graph_make E fs = Ok g.
Hypothesis Eg' : graph_make E (fs ++ [f]) = Ok g'.
Variables (z : assign R) (valz : var -> pytree R) (cz : R) (rz r : list R).
Hypothesis Hz : assigns E fs z valz.
Hypothesis Ecz : compute_cost E g z = Ok (cz, rz).
Hypothesis Er : whitened_at E valz f = Ok r.
Variables (m G : R).
Hypothesis Hm : 0 < m.
Hypothesis HG : 0 <= G.
Hypothesis Hgrow : grows_from E fs g m cz valz.
Hypothesis Hdrift : drifts_from E fs f G valz r.

Lemma gate_assigns b valb : assigns E (fs ++ [f]) b valb <-> assigns E fs b valb.
Proof. unfold assigns. rewrite Hment. tauto. Qed.
Lemma gate_legal b valb : assigns E fs b valb -> forall v, In v (mentioned fs) -> value_ok (e_cls E (v_ty v)) (valb v).
Proof.
  destruct WP as [CO _ _ _ _]. intros (vs & Hwf & Hin & Hgt) v Hv. destruct (get_value_ok _ CO vs b v Hwf) as (x & Ex & Hx & _); [apply Hin; auto|]. rewrite Hgt in Ex by (apply Hin; auto). injection Ex as <-. auto.
Qed.
Lemma gate_cost b valb c rb : assigns E fs b valb -> compute_cost E g' b = Ok (c, rb) -> exists c1 r1 u, compute_cost E g b = Ok (c1, r1) /\ whitened_at E valb f = Ok u /\ c = c1 + sumsq u /\ length u = residual_dim f.
Proof.
  intros Ha Ec. destruct (cost_of_assigns E fs g b valb WP Eg Ha) as (r1 & E1). destruct (cost_of_assigns E _ g' b valb WP' Eg' (proj2 (gate_assigns b valb) Ha)) as (r2 & E2).
  destruct WP' as [_ Hok Hws _ _]. assert (Hin : In f (fs ++ [f])) by (apply in_or_app; right; left; auto).
  destruct (whitened_at_ok E valb f) as (u & Eu & Lu); [apply Hok; auto | apply (ws_residual E _ Hws); auto; rewrite Hment; apply (gate_legal b); auto|].
  exists (cost_at E fs valb), r1, u. split; auto. split; auto. split; auto. assert (Hc : c = cost_at E (fs ++ [f]) valb) by congruence. rewrite Hc. unfold cost_at. rewrite map_app, vsum_app. cbn [map]. rewrite vsum_cons, vsum_nil, Eu. lra.
Qed.
Lemma gate_start : exists r0, compute_cost E g' z = Ok (cz + sumsq r, r0).
Proof.
  destruct (cost_of_assigns E _ g' z valz WP' Eg' (proj2 (gate_assigns z valz) Hz)) as (r2 & E2). exists r2. destruct (gate_cost z valz _ _ Hz E2) as (c1 & r1 & u & H1 & H2 & H3 & _).
  rewrite E2. do 2 f_equal. rewrite H3. assert (c1 = cz) by congruence. assert (u = r) by congruence. subst. auto.
Qed.
Lemma dist_nonneg valb : 0 <= distance2 fs valz valb.
Proof. unfold distance2. apply vsum_nonneg. intros x Hx. apply in_map_iff in Hx. destruct Hx as (v & <- & _). apply sumsq_nonneg. Qed.

Lemma gate_facts b valb c rb : assigns E (fs ++ [f]) b valb -> compute_cost E g' b = Ok (c, rb) ->
  cz + sumsq r * m / (m + G) <= c /\
  (c <= cz + sumsq r -> m * distance2 fs valz valb <= sumsq r /\ (G <= m -> (m + G) * sqrt (distance2 fs valz valb) <= 2 * (sqrt G * vnorm r))).
Proof.
  intros Ha Ec. apply gate_assigns in Ha. destruct (gate_cost b valb c rb Ha Ec) as (c1 & r1 & u & E1 & Eu & -> & Lu).
  pose proof (Hgrow b valb c1 r1 Ha E1) as Hg. destruct (Hdrift valb (gate_legal b valb Ha)) as (u' & Eu' & Hd). assert (u' = u) by congruence. subst u'.
  assert (L0 : length r = residual_dim f). { destruct gate_start as (r2 & E2). destruct (gate_cost z valz _ _ Hz E2) as (c0 & r0 & u0 & _ & Eu0 & _ & L0). congruence. }
  set (D := distance2 fs valz valb) in *. set (d := sqrt D). assert (D0 : 0 <= D) by apply dist_nonneg.
  assert (Hdd : d * d = D) by (apply sqrt_sqrt; auto). assert (Hqq : sqrt G * sqrt G = G) by (apply sqrt_sqrt; auto).
  destruct (vnorm_sq r) as (N0 & N1). destruct (vnorm_sq u) as (U0 & U1).
  assert (Hn : vnorm r <= vnorm u + sqrt G * d).
  { assert (Hr : r = vadd u (vscale (-1) (vsub u r))).
    { apply (vec_ext (length r)); auto; [rewrite vadd_length; rewrite ?vscale_length, ?vsub_length; congruence|]. intros y Hy. rewrite vdot_add_r, vdot_scale_r, vdot_sub_r by (rewrite ?vscale_length, ?vsub_length; congruence). ring. }
    assert (Hq : vnorm (vscale (-1) (vsub u r)) <= sqrt G * d).
    { unfold d. rewrite <- sqrt_mult by auto. unfold vnorm. apply sqrt_le_1_alt. change (sumsq (vscale (-1) (vsub u r)) <= G * D). rewrite sumsq_scale. lra. }
    destruct (vnorm_sq (vscale (-1) (vsub u r))) as (V0 & _).
    apply Rle_trans with (vnorm u + vnorm (vscale (-1) (vsub u r))); [|lra]. unfold vnorm at 1. rewrite <- (sqrt_square (vnorm u + _)) by lra. apply sqrt_le_1_alt.
    change (sumsq r <= (vnorm u + vnorm (vscale (-1) (vsub u r))) * (vnorm u + vnorm (vscale (-1) (vsub u r)))). rewrite Hr at 1. apply norm_triangle. rewrite vscale_length, vsub_length; congruence. }
  pose proof (sqrt_pos G) as Q0. pose proof (sqrt_pos D) as S0. fold d in S0.
  pose proof (gate_low m (sqrt G) d (vnorm r) (vnorm u) Hm Q0 S0 N0 U0 Hn) as HL. rewrite Hqq, Hdd, N1, U1 in HL. split; [lra|]. intros Hc. pose proof (sumsq_nonneg u). split; [lra|]. intros HGm.
  pose proof (gate_far m (sqrt G) d (vnorm r) (vnorm u) Hm Q0 S0 N0 U0 Hn) as HF. rewrite Hqq, Hdd, N1, U1 in HF. apply HF; lra.
Qed.
End Gate.

Lemma gate_bounds : forall (E : env R) fs f g g' z valz cz rz r m G,
  well_posed E fs -> well_posed E (fs ++ [f]) -> mentioned (fs ++ [f]) = mentioned fs -> graph_make E fs = Ok g -> graph_make E (fs ++ [f]) = Ok g' ->
  assigns E fs z valz -> compute_cost E g z = Ok (cz, rz) -> whitened_at E valz f = Ok r -> 0 < m -> 0 <= G -> grows_from E fs g m cz valz -> drifts_from E fs f G valz r ->
  (exists r0, compute_cost E g' z = Ok (cz + sumsq r, r0)) /\
  forall b valb c rb, assigns E (fs ++ [f]) b valb -> compute_cost E g' b = Ok (c, rb) ->
    cz + sumsq r * m / (m + G) <= c /\ (c <= cz + sumsq r -> gated fs m G cz valz r valb c).
Proof.
  intros E fs f g g' z valz cz rz r m G WP WP' Hm Eg Eg' Hz Ec Er Hm0 HG Hgr Hd. split.
  - apply (gate_start E fs f g g' WP WP' Hm Eg Eg' z valz cz rz r Hz Ec Er).
  - intros b valb c rb Ha Eb. destruct (gate_facts E fs f g g' WP WP' Hm Eg Eg' z valz cz rz r Hz Ec Er m G Hm0 HG Hgr Hd b valb c rb Ha Eb) as (H1 & H2).
    split; auto. intros H. destruct (H2 H) as (H3 & H4). split; auto.
Qed.

Lemma self_dist (fs : list (factor R)) val : distance2 fs val val = 0.
Proof. unfold distance2. generalize (mentioned fs). induction l as [|v l IH]; cbn [map]; [apply vsum_nil|]. rewrite vsum_cons, IH, self_distance. lra. Qed.

Lemma gate_restart : forall (E : env R) fs f g g' z valz cz rz r m G,
  well_posed E fs -> well_posed E (fs ++ [f]) -> mentioned (fs ++ [f]) = mentioned fs -> graph_make E fs = Ok g -> graph_make E (fs ++ [f]) = Ok g' ->
  assigns E fs z valz -> compute_cost E g z = Ok (cz, rz) -> whitened_at E valz f = Ok r -> 0 < m -> 0 <= G -> grows_from E fs g m cz valz -> drifts_from E fs f G valz r ->
  linear_problem E (fs ++ [f]) ->
  let good a' := exists val' c r', assigns E (fs ++ [f]) a' val' /\ compute_cost E g' a' = Ok (c, r') /\ gated fs m G cz valz r val' c in
  (forall cfg fuel a', gn_solve E fuel cfg cholmod_solve g' z = Some (Ok a') -> good a') /\
  (forall cfg fuel a', 0 <= lambda_initial cfg -> 1 <= lambda_factor cfg -> 0 <= lambda_min cfg -> lm_quality_min cfg <= 1 -> lm_solve E fuel cfg cholmod_solve g' z = Some (Ok a') -> good a') /\
  (forall cfg fuel a', 0 < radius_initial cfg -> dl_quality_min cfg <= 1 -> dl_solve E fuel cfg cholmod_solve g' z = Some (Ok a') -> good a') /\
  (forall fuel unroll it, same_layout (as_layout z) (g_layout g') -> (1 <= it)%Z -> (Z.to_nat it <= fuel)%nat -> exists a', fixed_solve E fuel unroll it cholmod_solve g' z = Some (Ok a') /\ good a').
Proof.
  intros E fs f g g' z valz cz rz r m G WP WP' Hm Eg Eg' Hz Ec Er Hm0 HG Hgr Hd LP good.
  destruct (gate_bounds E fs f g g' z valz cz rz r m G WP WP' Hm Eg Eg' Hz Ec Er Hm0 HG Hgr Hd) as ((r0 & E0) & Hb).
  assert (Hz' : assigns E (fs ++ [f]) z valz) by (apply (gate_assigns E fs f Hm); auto).
  destruct (linear_solves E (fs ++ [f]) g' LP WP' Eg' z valz z valz _ _ Hz' Hz' E0) as (Lg & Ll & Lf).
  destruct (linear_minimum E (fs ++ [f]) g' LP WP' Eg' z valz Hz') as (zm & vm & cm & rm & Hmin).
  pose proof WP' as [CO Hok Hws _ _]. destruct (made E _ g' Hok Eg') as (Hg & _). destruct (posed_graph E _ WP') as (Hne & _ & Hrd & Hpd).
  assert (HV : forall step extra solve fuel a', nonlinear_solver E cholmod_solve step extra solve -> solve fuel g' z = Some (Ok a') -> exists val', assigns E (fs ++ [f]) a' val').
  { intros step extra solve fuel a' Hs H. destruct (solve_total E CO (fs ++ [f]) g' Hok Hg Hne Hrd Hpd Hws cholmod_solve cholmod_total step extra solve z valz fuel Hs Hz') as [H0|(a1 & v1 & H1 & H2)]; [congruence|].
    exists v1. assert (a' = a1) by congruence. subst. auto. }
  assert (HD : forall k, k * distance2 (fs ++ [f]) valz valz = 0) by (intros k; rewrite self_dist; ring).
  split; [|split; [|split]].
  - intros cfg fuel a' H. destruct (HV _ _ _ fuel a' (solver_gn E cholmod_solve cfg) H) as (v' & Hv'). destruct (Lg cfg fuel a' H) as (c & r' & E' & Hc). rewrite HD in Hc.
    exists v', c, r'. split; auto. split; auto. destruct (Hb a' v' c r' Hv' E') as (_ & HH). apply HH. lra.
  - intros cfg fuel a' L1 L2 L3 L4 H. destruct (HV _ _ _ fuel a' (solver_lm E cholmod_solve cfg) H) as (v' & Hv'). destruct (Ll cfg fuel a' L1 L2 L3 L4 H) as (c & r' & E' & Hc). rewrite HD in Hc.
    exists v', c, r'. split; auto. split; auto. destruct (Hb a' v' c r' Hv' E') as (_ & HH). apply HH. lra.
  - intros cfg fuel a' L1 L2 H. destruct (HV _ _ _ fuel a' (solver_dl E cholmod_solve cfg) H) as (v' & Hv').
    destruct (linear_dogleg E (fs ++ [f]) g' LP WP' Eg' zm vm cm rm cfg Hmin L1 L2) as (_ & Ld). destruct (Ld fuel z valz a' Hz' H) as (c & r' & E' & Hc & _). specialize (Hc _ _ E0).
    exists v', c, r'. split; auto. split; auto. destruct (Hb a' v' c r' Hv' E') as (_ & HH). apply HH. lra.
  - intros fuel unroll it Hs Hit Hfu. destruct (Lf fuel unroll it Hs Hit Hfu) as (a' & c & r' & Ef & E' & Hc). exists a'. split; auto.
    assert (Hh : holds E (fs ++ [f]) z valz) by (apply (lin_holds E (fs ++ [f]) g' WP' Eg' z valz Hz' Hs)).
    destruct (fixed_solve_total E CO (fs ++ [f]) g' Hok Hg Hne Hrd Hws cholmod_solve cholmod_total z valz fuel unroll it Hh) as [(H0 & _)|(a1 & v1 & H1 & H2)]; [congruence|].
    assert (a' = a1) by congruence. subst a1. exists v1, c, r'. split; auto. split; auto. destruct (Hb a' v1 c r' H2 E') as (_ & HH). apply HH. replace (1 / 100000 * distance2 (fs ++ [f]) valz valz / IZR it) with 0 in Hc by (rewrite self_dist; unfold Rdiv; ring). lra.
Qed.

(* ---- x at 1, y two further; a measurement puts y at 7 ---- *)
Definition short_fs : list (factor R) := [anchor vx 1; mkFactor 22 [vx; vy] (DiagGaussian (mkArr [1%nat] [2])) [leaf1 [2]]].
Lemma short_posed : well_posed exLE short_fs.
Proof.
  pose proof chain_posed as [P1 P2 P3 P4 P5]. assert (Hi : forall f, In f short_fs -> In f chain_fs) by (intros f [<-|[<-|[]]]; [left | right; left]; auto).
  split; auto.
  - destruct P3 as [W1 W2 W3]. split; auto.
  - exists (anchor vx 1). split; [left; auto | discriminate].
Qed.
Lemma short_cost g : graph_make exLE short_fs = Ok g -> forall x y, exists r, compute_cost exLE g (scalars [vx; vy] [x; y]) = Ok ((x - 1) * (x - 1) + 4 * ((y - x - 2) * (y - x - 2)), r).
Proof. intros Eg x y. injection Eg as <-. eexists. comp. f_equal. f_equal. unfold Rlit. lra. Qed.
Lemma gate_example : exists g g' rz, well_posed exLE short_fs /\ well_posed exLE (short_fs ++ [anchor vy 7]) /\ mentioned (short_fs ++ [anchor vy 7]) = mentioned short_fs /\
  graph_make exLE short_fs = Ok g /\ graph_make exLE (short_fs ++ [anchor vy 7]) = Ok g' /\ assigns exLE short_fs (scalars [vx; vy] [1; 3]) (two_of 1 3) /\
  same_layout (as_layout (scalars [vx; vy] [1; 3])) (g_layout g') /\ compute_cost exLE g (scalars [vx; vy] [1; 3]) = Ok (0, rz) /\ whitened_at exLE (two_of 1 3) (anchor vy 7) = Ok [-4] /\
  grows_from exLE short_fs g (2/5) 0 (two_of 1 3) /\ drifts_from exLE short_fs (anchor vy 7) 1 (two_of 1 3) [-4] /\ linear_problem exLE (short_fs ++ [anchor vy 7]).
Proof.
  destruct (graph_make exLE short_fs) as [g|] eqn:Eg; [|discriminate]. destruct (graph_make exLE (short_fs ++ [anchor vy 7])) as [g'|] eqn:Eg'; [|discriminate].
  pose proof (short_cost g Eg) as Hc. destruct (Hc 1 3) as (rz & Ez). exists g, g', rz. split; [exact short_posed|]. split; [exact chain_posed|]. split; [reflexivity|]. split; auto. split; auto.
  split; [apply two_assigns; reflexivity|]. split; [injection Eg' as <-; repeat split; reflexivity|]. split; [rewrite Ez; do 2 f_equal; lra|]. split; [comp; do 2 f_equal; unfold Rlit; lra|]. split; [|split; [|exact chain_linear]].
  - intros b valb cb rb Hb Eb. destruct (two_values exLE short_fs b valb eq_refl eq_refl (wp_classes _ _ short_posed) Hb) as (x & y & Hx & Hy).
    rewrite (two_cost exLE short_fs g b valb x y) in Eb by (auto; apply short_posed). destruct (Hc x y) as (r' & E'). rewrite E' in Eb. injection Eb as <- <-.
    rewrite (two_distance short_fs (two_of 1 3) valb 1 3 x y) by auto.
    set (u := x - 1). set (v := y - 3). replace (y - x - 2) with (v - u) by (unfold u, v; lra).
    pose proof (Rle_0_sqr (v * (18/5) - u * 4)). pose proof (Rle_0_sqr u). unfold Rsqr in *. nra.
  - intros valb Hv. assert (Hvx : exists x, valb vx = leaf1 [x]) by (apply scalar_shape; apply (Hv vx); left; auto). assert (Hvy : exists y, valb vy = leaf1 [y]) by (apply scalar_shape; apply (Hv vy); right; left; auto).
    destruct Hvx as (x & Hx). destruct Hvy as (y & Hy). exists [y - 7]. split.
    + unfold whitened_at, residual_at. cbn [anchor f_vars map]. rewrite Hy. comp. do 2 f_equal. unfold Rlit. lra.
    + rewrite (two_distance short_fs (two_of 1 3) valb 1 3 x y) by auto. pose proof (Rle_0_sqr (x - 1)). unfold Rsqr in *. comp. nra.
Qed.

(* ---- only the difference measured: whatever one more factor asks for costs nothing ---- *)
Lemma gate_flat : forall B, exists (E : env R) fs f g g' z valz rz r b rb, well_posed E fs /\ well_posed E (fs ++ [f]) /\ mentioned (fs ++ [f]) = mentioned fs /\
  graph_make E fs = Ok g /\ graph_make E (fs ++ [f]) = Ok g' /\ linear_problem E (fs ++ [f]) /\ is_minimum E fs g z valz 0 rz /\
  whitened_at E valz f = Ok r /\ B <= vnorm r /\ drifts_from E fs f 1 valz r /\
  assigns E (fs ++ [f]) b (two_of 5 7) /\ compute_cost E g' b = Ok (0, rb).
Proof.
  intros B. assert (Hk : exists k, 0 <= k /\ B <= k) by (exists (Rmax B 0); split; [apply Rmax_r | apply Rmax_l]). destruct Hk as (k & K0 & K1).
  assert (Hi : forall f, In f (link_fs ++ [anchor vy 7]) -> In f chain_fs) by (intros f [<-|[<-|[]]]; right; [left | right; left]; auto).
  destruct (graph_make exLE link_fs) as [g|] eqn:Eg; [|discriminate]. destruct (graph_make exLE (link_fs ++ [anchor vy 7])) as [g'|] eqn:Eg'; [|discriminate].
  assert (Hc : forall x y, exists r, compute_cost exLE g (scalars [vx; vy] [x; y]) = Ok (4 * ((y - x - 2) * (y - x - 2)), r)) by (intros x y; injection Eg as <-; eexists; comp; f_equal; f_equal; unfold Rlit; lra).
  assert (Hc' : exists r, compute_cost exLE g' (scalars [vx; vy] [5; 7]) = Ok (0, r)) by (injection Eg' as <-; eexists; comp; f_equal; f_equal; unfold Rlit; lra).
  destruct (Hc (5 + k) (7 + k)) as (rz & Ez). destruct Hc' as (rb & Eb).
  exists exLE, link_fs, (anchor vy 7), g, g', (scalars [vx; vy] [5 + k; 7 + k]), (two_of (5 + k) (7 + k)), rz, [k], (scalars [vx; vy] [5; 7]), rb.
  split; [exact link_posed|]. split.
  { pose proof chain_posed as [P1 P2 P3 P4 P5]. split; auto; [destruct P3 as [W1 W2 W3]; split; auto | exists (anchor vy 7); split; [right; left; auto | discriminate]]. }
  split; [reflexivity|]. split; auto. split; auto. split; [pose proof chain_linear as [P1 P2 P3 P4]; split; auto|]. split; [|split; [|split; [|split; [|split]]]].
  - split; [apply two_assigns; reflexivity|]. split; [rewrite Ez; do 2 f_equal; lra|]. intros b valb cb rb' Hb Eb'.
    destruct (two_values exLE link_fs b valb eq_refl eq_refl (wp_classes _ _ link_posed) Hb) as (x & y & Hx & Hy).
    rewrite (two_cost exLE link_fs g b valb x y) in Eb' by (auto; apply link_posed). destruct (Hc x y) as (r' & E'). rewrite E' in Eb'. injection Eb' as <- <-.
    pose proof (Rle_0_sqr (y - x - 2)). unfold Rsqr in *. lra.
  - comp. do 2 f_equal. unfold Rlit. lra.
  - assert (Hn : vnorm [k] = k) by (unfold vnorm; change (sqrt (sumsq [k]) = k); replace (sumsq [k]) with (k * k) by (comp; lra); apply sqrt_square; auto). rewrite Hn. auto.
  - intros valb Hv. assert (Hvx : exists x, valb vx = leaf1 [x]) by (apply scalar_shape; apply (Hv vx); left; auto). assert (Hvy : exists y, valb vy = leaf1 [y]) by (apply scalar_shape; apply (Hv vy); right; left; auto).
    destruct Hvx as (x & Hx). destruct Hvy as (y & Hy). exists [y - 7]. split.
    + unfold whitened_at, residual_at. cbn [anchor f_vars map]. rewrite Hy. comp. do 2 f_equal. unfold Rlit. lra.
    + rewrite (two_distance link_fs (two_of (5 + k) (7 + k)) valb (5 + k) (7 + k) x y) by auto. pose proof (Rle_0_sqr (x - (5 + k))). unfold Rsqr in *.
      assert (Hs : forall p q : R, sumsq (vsub [p] [q]) = (p - q) * (p - q)) by (intros p q; comp; lra). rewrite Hs. nra.
  - apply two_assigns; reflexivity.
  - exact Eb.
Qed.

(* ---- the lower bound is attained: two weighted measurements of one scalar ---- *)
Definition weigh (s z : R) : factor R := mkFactor 21 [vx] (DiagGaussian (mkArr [1%nat] [s])) [leaf1 [z]].
Lemma weigh_posed (fs : list (factor R)) : fs <> [] -> (forall f, In f fs -> exists s z, f = weigh s z) -> well_posed exSE fs.
Proof.
  intros Hne H. assert (Hin : forall f, In f fs -> f_vars f = [vx]) by (intros f Hf; destruct (H f Hf) as (s & z & ->); reflexivity).
  assert (Hm : forall v, In v (mentioned fs) -> v = vx).
  { intros v Hv. unfold mentioned in Hv; apply (proj1 (firsts_in _ _)) in Hv; apply in_flat_map in Hv as (f & Hf & Hv). rewrite (Hin f Hf) in Hv. destruct Hv as [<-|[]]; auto. }
  assert (Hval : forall val f, legal exSE fs val -> In f fs -> exists r, val vx = leaf1 [r]).
  { intros val f Hv Hf. assert (Hv' : In vx (mentioned fs)) by (apply mentioned_in; exists f; split; auto; rewrite Hin; auto; left; auto). apply scalar_shape. exact (Hv vx Hv'). }
  destruct fs as [|f0 l]; [congruence|]. split.
  - exact exS_classes.
  - intros f Hf. destruct (H f Hf) as (s & z & ->); repeat constructor; exists 1%nat; reflexivity.
  - split.
    + intros val f Hv Hf. destruct (Hval val f Hv Hf) as (r & Er). destruct (H f Hf) as (s & z & ->); unfold residual_shape_ok, residual_at; cbn [weigh f_vars map]; rewrite Er; reflexivity.
    + intros val f Hv Hf. destruct (Hval val f Hv Hf) as (r & Er). destruct (H f Hf) as (s & z & ->); unfold jacobian_shape_ok, jacobians_at; cbn [weigh f_vars map]; rewrite Er; repeat constructor.
    + intros v x d Hv Hx Hd. rewrite (Hm v Hv) in *. destruct (scalar_shape x Hx) as (r & ->). destruct d as [|e [|? ?]]; try discriminate Hd; eexists; (split; [reflexivity | split; repeat constructor]).
  - exists f0. split; [left; auto|]. destruct (H f0 (or_introl eq_refl)) as (s & z & ->); discriminate.
  - exists vx. split; [apply mentioned_in; exists f0; split; [left; auto | rewrite (Hin f0 (or_introl eq_refl)); left; auto] | discriminate].
Qed.
Lemma weigh_at val s z x : val vx = leaf1 [x] -> whitened_at exSE val (weigh s z) = Ok [s * (x - z)].
Proof. intros H. unfold whitened_at, residual_at. cbn [weigh f_vars map]. rewrite H. comp. do 2 f_equal. Qed.
Lemma sumsq_one (p : R) : sumsq [p] = p * p.
Proof. comp. lra. Qed.
Lemma weigh_sum val x a : val vx = leaf1 [x] -> cost_at exSE [weigh a 0] val = a * a * (x * x).
Proof. intros H. unfold cost_at. cbn [map]. rewrite (weigh_at val a 0 x H), vsum_cons, vsum_nil, sumsq_one. ring. Qed.
Lemma weigh_sum2 val x a b z : val vx = leaf1 [x] -> cost_at exSE ([weigh a 0] ++ [weigh b z]) val = a * a * (x * x) + b * b * ((x - z) * (x - z)).
Proof. intros H. unfold cost_at. cbn [map app]. rewrite (weigh_at val a 0 x H), (weigh_at val b z x H), !vsum_cons, vsum_nil, !sumsq_one. ring. Qed.
Lemma weigh_assigns (fs : list (factor R)) x : mentioned fs = [vx] -> assigns exSE fs (scalars [vx] [x]) (fun _ => leaf1 [x]).
Proof. intros H. unfold assigns. rewrite H. exists [vx]. split; [split; [repeat constructor; simpl; tauto | split; reflexivity]|]. split; [intros v; reflexivity|]. intros v [<-|[]]. reflexivity. Qed.

Lemma gate_sharp : forall m G n, 0 < m -> 0 < G -> 0 <= n -> exists (E : env R) fs f g g' z valz rz r b valb rb,
  well_posed E fs /\ well_posed E (fs ++ [f]) /\ mentioned (fs ++ [f]) = mentioned fs /\ graph_make E fs = Ok g /\ graph_make E (fs ++ [f]) = Ok g' /\
  assigns E fs z valz /\ compute_cost E g z = Ok (0, rz) /\ whitened_at E valz f = Ok r /\ vnorm r = n /\ grows_from E fs g m 0 valz /\ drifts_from E fs f G valz r /\
  assigns E (fs ++ [f]) b valb /\ compute_cost E g' b = Ok (0 + sumsq r * m / (m + G), rb).
Proof.
  intros m G n Hm HG Hn. pose proof (sqrt_lt_R0 m Hm) as A0. pose proof (sqrt_lt_R0 G HG) as B0. pose proof (sqrt_sqrt m (Rlt_le _ _ Hm)) as AA. pose proof (sqrt_sqrt G (Rlt_le _ _ HG)) as BB.
  set (a := sqrt m) in *. set (q := sqrt G) in *. set (fs := [weigh a 0]). set (f := weigh q (n / q)).
  assert (WP : well_posed exSE fs) by (apply weigh_posed; [discriminate|]; intros h [<-|[]]; do 2 eexists; reflexivity).
  assert (WP' : well_posed exSE (fs ++ [f])) by (apply weigh_posed; [discriminate|]; intros h [<-|[<-|[]]]; do 2 eexists; reflexivity).
  destruct (posed_graph exSE fs WP) as (_ & (g & Eg) & _). destruct (posed_graph exSE _ WP') as (_ & (g' & Eg') & _).
  set (x := G * (n / q) / (m + G)).
  pose proof (weigh_assigns fs 0 eq_refl) as Z1. pose proof (weigh_assigns (fs ++ [f]) x eq_refl) as Z2.
  destruct (cost_of_assigns exSE fs g _ _ WP Eg Z1) as (rz & Ez). destruct (cost_of_assigns exSE _ g' _ _ WP' Eg' Z2) as (rb & Eb).
  exists exSE, fs, f, g, g', (scalars [vx] [0]), (fun _ => leaf1 [0]), rz, [q * (0 - n / q)], (scalars [vx] [x]), (fun _ => leaf1 [x]), rb.
  split; [exact WP|]. split; [exact WP'|]. split; [reflexivity|]. split; [exact Eg|]. split; [exact Eg'|]. split; [exact Z1|].
  split; [rewrite Ez; unfold fs; rewrite (weigh_sum _ 0) by reflexivity; do 2 f_equal; ring|]. split; [apply weigh_at; reflexivity|].
  assert (Hv : q * (0 - n / q) = - n) by (field; lra). rewrite Hv.
  assert (Hsq : sumsq [- n] = n * n) by (rewrite sumsq_one; ring).
  assert (HD : forall val y, val vx = leaf1 [y] -> distance2 fs (fun _ => leaf1 [0]) val = y * y) by (intros val y H; unfold distance2; change (mentioned fs) with [vx]; cbn [map]; rewrite H; comp; lra).
  split; [unfold vnorm; change (sqrt (sumsq [- n]) = n); rewrite Hsq; apply sqrt_square; auto|]. split; [|split; [|split]].
  - intros b valb cb rb' Hb Ec. assert (Hl : value_ok (e_cls exSE (v_ty vx)) (valb vx)) by (apply (gate_legal exSE fs WP b valb Hb); left; auto). destruct (scalar_shape _ Hl) as (y & Ey).
    destruct (cost_of_assigns exSE fs g b valb WP Eg Hb) as (r1 & E1). assert (Hc : cb = cost_at exSE fs valb) by congruence. rewrite Hc. unfold fs at 2. rewrite (weigh_sum valb y) by auto. rewrite (HD valb y Ey), AA. lra.
  - intros valb Hl. destruct (scalar_shape _ (Hl vx (or_introl eq_refl))) as (y & Ey). exists [q * (y - n / q)]. split; [apply weigh_at; auto|]. rewrite (HD valb y Ey).
    replace (vsub [q * (y - n / q)] [- n]) with [q * y]; [rewrite sumsq_one; replace (q * y * (q * y)) with (q * q * (y * y)) by ring; rewrite BB; lra|].
    change (vsub [q * (y - n / q)] [- n]) with [q * (y - n / q) - - n]. f_equal. field. lra.
  - exact Z2.
  - rewrite Eb. do 2 f_equal. unfold fs, f. rewrite (weigh_sum2 _ x) by reflexivity. rewrite Hsq, AA, BB. unfold x.
    assert (Hnq : n / q * (n / q) * G = n * n) by (rewrite <- BB; field; lra).
    replace (m * (G * (n / q) / (m + G) * (G * (n / q) / (m + G))) + G * ((G * (n / q) / (m + G) - n / q) * (G * (n / q) / (m + G) - n / q))) with (n / q * (n / q) * G * m / (m + G)) by (field; lra).
    rewrite Hnq. lra.
Qed.
