(* Bundled statements and concrete instances: Dogleg on linear problems, existence of the minimum. *)
From Coq Require Import List Arith Bool ZArith Lia Permutation Reals Lra.
From Verif Require Import Num NumR Py Arr MLayout MAssign MNoise MSparse MFactor MGraph MLinear MSolver SpecLayout SpecTree SpecAssign SpecGraph SpecSparse SpecDeriv SpecSolver SpecOrder SpecInv SpecLin.
From Verif Require Import PBase PLayout PTree PVec PAssign PAssign2 PGraph PGraph2 PHold PExGraph PSolver PSolver2 PSolverR PInv PTotal PLin PLinDl Ex ExG ExS PExInv PExOrder PExSym PExLin.
Import ListNotations.
Local Open Scope R_scope.

Section Any.
Variable E : env R.
Variable fs : list (factor R).
Variable g : graph R.
Hypothesis LP : linear_problem E fs.
Hypothesis WP : well_posed E fs.
Hypothesis Eg : graph_make E fs = Ok g.

Lemma lin_holds a val : assigns E fs a val -> same_layout (as_layout a) (g_layout g) -> holds E fs a val.
Proof.
  intros (vs & H1 & H2 & H3) Hs. pose proof WP as [CO Hok Hws _ _]. destruct (made E fs g Hok Eg) as (Hg & _). exists vs. split; auto.
  split; [rewrite <- (ig_layout _ _ _ Hg); auto|]. intros v Hv. apply H3, H2; auto.
Qed.

Lemma minimum_exists init val0 : assigns E fs init val0 -> exists z valz cz rz, is_minimum E fs g z valz cz rz.
Proof.
  intros Hi. destruct (posed_graph E fs WP) as (Hne & _ & Hrd & Hpd). pose proof WP as [CO Hok Hws _ _]. destruct (made E fs g Hok Eg) as (Hg & _).
  destruct (update_holds E CO fs init val0 Hi) as (a & Eu & Ha).
  destruct (cost_total E CO fs g Hok Hg Hne Hws a (ex_intro _ val0 Ha)) as (c0 & r0 & Ec & Hl).
  set (s0 := mkState 0 a c0 r0 false 0). assert (Hr0 : ready E fs s0) by (split; [exists val0; auto | auto]).
  destruct (jacobian_total E CO fs g Hok Hg Hrd Hws s0 Hr0) as (A & EA & _).
  destruct (lin_minimum E fs g LP CO Hok Hg Hne Hrd Hws s0 A ltac:(split; [exact Ec | exists val0; auto]) EA) as (z & valz & cz & rz & Hz & Ez & Hmin).
  exists z, valz, cz, rz. split; [apply holds_assigns; auto|]. split; auto. intros b valb cb rb Hb Eb.
  destruct (update_holds E CO fs b valb Hb) as (b' & Eb' & Hb'). apply (Hmin b' valb cb rb Hb'). rewrite <- Eb. apply (cost_values E fs g WP Eg b' b valb); auto. apply holds_assigns; auto.
Qed.

Section Point.
Variables (z : assign R) (valz : var -> pytree R) (cz : R) (rz : list R).
Hypothesis Hz : is_minimum E fs g z valz cz rz.

Lemma dl_runs_lin cfg a val c0 r0 k st : 0 < radius_initial cfg -> dl_quality_min cfg <= 1 -> holds E fs a val -> compute_cost E g a = Ok (c0, r0) ->
  runs (dl_step E cfg cholmod_solve g) k (mkState 0 a c0 r0 false (radius_initial cfg)) st ->
  fresh E fs g st /\ s_cost st <= c0 /\ cz <= s_cost st /\
  forall K, distance2 fs val valz <= (3 ^ K * radius_initial cfg) * (3 ^ K * radius_initial cfg) -> (K < k)%nat ->
    s_cost st <= cz + 1 / 100000 * distance2 fs val valz / (INR k - INR K).
Proof.
  intros Hr0 Hq Ha Ec Hr. destruct (posed_graph E fs WP) as (Hne & _ & Hrd & Hpd). pose proof WP as [CO Hok Hws _ _]. destruct (made E fs g Hok Eg) as (Hg & _).
  destruct Hz as (Hz1 & Ez & Hmin). destruct (update_holds E CO fs z valz Hz1) as (z' & Eu & Hz').
  assert (Ez' : compute_cost E g z' = Ok (cz, rz)) by (rewrite <- Ez; apply (cost_values E fs g WP Eg z' z valz); auto; apply holds_assigns; auto).
  destruct (dl_chain E fs g LP CO Hok Hg Hne Hrd Hws z' valz cz rz Hz' Ez') with (cfg := cfg) (k := k) (s := mkState 0 a c0 r0 false (radius_initial cfg)) (s' := st) as (F1 & F2 & F3 & F4); auto.
  - intros b valb cb rb Hb Eb. apply (Hmin b valb cb rb); auto. apply holds_assigns; auto.
  - split; [exact Ec | exists val; auto].
  - apply runs_iterate; auto.
  - do 3 (split; auto). cbn [s_assign s_extra] in F4. unfold dist2 in F4. rewrite (held_distance E fs LP CO a val z' valz Ha Hz') in F4.
    intros K HK Hlt. specialize (F4 K HK). assert (0 < INR k - INR K) by (apply lt_INR in Hlt; lra).
    apply (Rmult_le_reg_l (INR k - INR K)); auto. replace ((INR k - INR K) * (cz + 1 / 100000 * distance2 fs val valz / (INR k - INR K))) with ((INR k - INR K) * cz + 1 / 100000 * distance2 fs val valz) by (field; lra). lra.
Qed.

Lemma distance2_nonneg val val' : 0 <= distance2 fs val val'.
Proof.
  unfold distance2. generalize (mentioned fs). induction l as [|v l IH]; [simpl map; rewrite vsum_nil; lra|]. simpl map. rewrite vsum_cons. pose proof (sumsq_nonneg (vsub (ravel (val' v)) (ravel (val v)))). lra.
Qed.

Lemma dl_solve_lin cfg fuel init val0 a' : 0 < radius_initial cfg -> dl_quality_min cfg <= 1 -> assigns E fs init val0 -> dl_solve E fuel cfg cholmod_solve g init = Some (Ok a') ->
  exists c r, compute_cost E g a' = Ok (c, r) /\ (forall c0 r0, compute_cost E g init = Ok (c0, r0) -> c <= c0) /\
    (distance2 fs val0 valz <= radius_initial cfg * radius_initial cfg -> c <= cz + 1 / 100000 * distance2 fs val0 valz).
Proof.
  intros Hr0 Hq Hi H. pose proof WP as [CO Hok Hws _ _]. destruct (made E fs g Hok Eg) as (Hg & _).
  unfold dl_solve, solve_with in H. rewrite (ig_layout _ _ _ Hg) in H. destruct (update_holds E CO fs init val0 Hi) as (a & Eu & Ha). rewrite Eu in H.
  unfold init_state in H. destruct (compute_cost E g a) as [[c0 r0]|] eqn:Ec; cbn [bind fst snd] in H; [|discriminate].
  destruct (while_loop fuel _ (dl_step E cfg cholmod_solve g) _) as [[st|]|] eqn:Ew; try discriminate. injection H as H.
  destruct (while_runs _ _ _ _ Ew) as (k & _ & Hr & Hd).
  assert (Hk : (1 <= k)%nat). { destruct k; [|lia]. inversion Hr; subst. discriminate. }
  destruct (dl_runs_lin cfg a val0 c0 r0 k st Hr0 Hq Ha Ec Hr) as ((Hc & val' & Hh) & Hle & _ & Hrate).
  destruct (update_back E CO fs (s_assign st) val' init val0 Hh Hi) as (a1 & Eb & Ha1). rewrite H in Eb. injection Eb as <-.
  exists (s_cost st), (s_res st). split; [|split].
  - rewrite (cost_values E fs g WP Eg a' (s_assign st) val'); auto. apply holds_assigns; auto.
  - intros c1 r1 E1. rewrite (cost_values E fs g WP Eg init a val0) in E1 by (auto; apply holds_assigns; auto). rewrite Ec in E1. injection E1 as <- <-. auto.
  - intros HD. specialize (Hrate O). simpl pow in Hrate. simpl INR in Hrate. rewrite Rmult_1_l, Rminus_0_r in Hrate. specialize (Hrate HD ltac:(lia)).
    pose proof (distance2_nonneg val0 valz) as H0. assert (1 <= INR k) by (apply (le_INR 1 k) in Hk; simpl in Hk; auto).
    assert (Hq2 : 1 / 100000 * distance2 fs val0 valz / INR k <= 1 / 100000 * distance2 fs val0 valz).
    { apply (Rmult_le_reg_r (INR k)); [lra|]. unfold Rdiv at 1. rewrite Rmult_assoc, Rinv_l by lra. nra. }
    lra.
Qed.
End Point.
End Any.

Lemma linear_minimum E fs g : linear_problem E fs -> well_posed E fs -> graph_make E fs = Ok g ->
  forall init val0, assigns E fs init val0 -> exists z valz cz rz, is_minimum E fs g z valz cz rz.
Proof. intros LP WP Eg init val0. apply minimum_exists; auto. Qed.

Lemma linear_dogleg E fs g : linear_problem E fs -> well_posed E fs -> graph_make E fs = Ok g ->
  forall z valz cz rz cfg, is_minimum E fs g z valz cz rz -> 0 < radius_initial cfg -> dl_quality_min cfg <= 1 ->
  (forall a val c0 r0 k st, assigns E fs a val -> same_layout (as_layout a) (g_layout g) -> compute_cost E g a = Ok (c0, r0) ->
     runs (dl_step E cfg cholmod_solve g) k (mkState 0 a c0 r0 false (radius_initial cfg)) st ->
     current E g st /\ s_cost st <= c0 /\
     forall K, distance2 fs val valz <= (3 ^ K * radius_initial cfg) * (3 ^ K * radius_initial cfg) -> (K < k)%nat ->
       s_cost st <= cz + 1 / 100000 * distance2 fs val valz / (INR k - INR K)) /\
  (forall fuel init val0 a', assigns E fs init val0 -> dl_solve E fuel cfg cholmod_solve g init = Some (Ok a') ->
     exists c r, compute_cost E g a' = Ok (c, r) /\ (forall c0 r0, compute_cost E g init = Ok (c0, r0) -> c <= c0) /\
       (distance2 fs val0 valz <= radius_initial cfg * radius_initial cfg -> c <= cz + 1 / 100000 * distance2 fs val0 valz)).
Proof.
  intros LP WP Eg z valz cz rz cfg Hz H1 H2. split.
  - intros a val c0 r0 k st Ha Hs Ec Hr. destruct (dl_runs_lin E fs g LP WP Eg z valz cz rz Hz cfg a val c0 r0 k st H1 H2 (lin_holds E fs g WP Eg a val Ha Hs) Ec Hr) as ((F1 & _) & F2 & _ & F4). auto.
  - intros fuel init val0 a' Hi H. apply (dl_solve_lin E fs g LP WP Eg z valz cz rz Hz cfg fuel init val0 a'); auto.
Qed.

(* ---- the chain of PExLin: the minimum is at 25/9, 47/9 ---- *)
Lemma chain_minimum : exists g, graph_make exLE chain_fs = Ok g /\
  (exists rz, is_minimum exLE chain_fs g (scalars [vx; vy] [25/9; 47/9]) (fun v => if Nat.eqb (v_id v) 0 then leaf1 [25/9] else leaf1 [47/9]) (64/9) rz) /\
  0 < radius_initial (dl_default 100) /\ dl_quality_min (dl_default 100) <= 1 /\
  distance2 chain_fs (fun _ => leaf1 [0]) (fun v => if Nat.eqb (v_id v) 0 then leaf1 [25/9] else leaf1 [47/9]) <= (3 ^ 2 * radius_initial (dl_default 100)) * (3 ^ 2 * radius_initial (dl_default 100)).
Proof.
  destruct (graph_make exLE chain_fs) as [g|] eqn:Eg; [|discriminate]. exists g. split; auto.
  assert (Hc : forall x y, exists c r, compute_cost exLE g (scalars [vx; vy] [x; y]) = Ok (c, r) /\ c = (x - 1) * (x - 1) + (2 * (y - x - 2)) * (2 * (y - x - 2)) + (y - 7) * (y - 7)).
  { intros x y. injection Eg as <-. do 2 eexists. split; [comp; reflexivity|]. unfold Rlit. rewrite <- ?Rminus_0_l. lra. }
  split; [|split; [|split]].
  - destruct (Hc (25/9) (47/9)) as (c & r & Ec & Hv). exists r. split; [apply chain_assigns|]. split; [rewrite Ec; do 3 f_equal; lra|].
    intros b valb cb rb Hb Eb. assert (Hvx : exists x, valb vx = leaf1 [x] /\ exists y, valb vy = leaf1 [y]).
    { destruct Hb as (vs & Hwf & Hvs & Hval). assert (Hl : forall v, In v (mentioned chain_fs) -> value_ok (e_cls exLE (v_ty v)) (valb v)).
      { intros v Hin. destruct (get_value_ok _ (wp_classes _ _ chain_posed) vs b v Hwf) as (x & Ex & Hx & _); [apply Hvs; auto|]. rewrite Hval in Ex by (apply Hvs; auto). injection Ex as ->. auto. }
      destruct (scalar_shape _ (Hl vx (or_introl eq_refl))) as (x & Ex). destruct (scalar_shape _ (Hl vy (or_intror (or_introl eq_refl)))) as (y & Ey). eauto. }
    destruct Hvx as (x & Ex & y & Ey). destruct (Hc x y) as (c' & r' & Ec' & ->).
    assert (Hb' : assigns exLE chain_fs (scalars [vx; vy] [x; y]) valb).
    { exists [vx; vy]. split; [split; [repeat constructor; simpl; intuition discriminate | split; reflexivity]|]. split; [intros v; reflexivity|]. intros v [<-|[<-|[]]]; rewrite ?Ex, ?Ey; reflexivity. }
    rewrite (cost_values exLE chain_fs g chain_posed Eg _ _ valb Hb Hb') in Eb. rewrite Ec' in Eb. injection Eb as <- <-.
    pose proof (Rle_0_sqr (x - 25/9)) as P1. pose proof (Rle_0_sqr (y - 47/9)) as P2. pose proof (Rle_0_sqr ((y - 47/9) - (x - 25/9))) as P3. unfold Rsqr in *. lra.
  - cbn. rn. lra.
  - cbn. rn. unfold Rlit. lra.
  - comp. unfold Rlit. rewrite <- ?Rminus_0_l. lra.
Qed.
