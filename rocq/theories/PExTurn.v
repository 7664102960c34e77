(* Runs of the solvers on graphs of planar rotations; a concrete ring. *)
From Coq Require Import List Arith Bool Lia Permutation Reals Lra ZArith.
From Verif Require Import Num NumR Py Arr MLayout MAssign MNoise MSparse MFactor MGraph MLinear MSolver MLie MPose SpecLayout SpecTree SpecAssign SpecGraph SpecSparse SpecNoise SpecDeriv SpecOrder SpecInv SpecSolver SpecTwin SpecLie SpecPose SpecBook SpecOutlier SpecStraight SpecTurn.
From Verif Require Import PBase PVec PLayout PNoise PGraph PHold POrder POrder2 PSolver PSolver2 PSolverR PDescent PTotal PLie PPose PExAssign PExGraph PExInv PExScript PBook PExBook POutlier PStraight PExStraight PTurn.
Import ListNotations.
Local Open Scope R_scope.

Section Runs.
Variable groups : vty -> lie_ops R (list R).
Notation E := (pose_env groups).
Variable os : list bearing.
Variable fs : list (factor R).
Hypothesis Hos : Forall2 bearing_factor os fs.
Hypothesis Hso : Forall (so2_bearing groups) os.
Notation vs := (mentioned fs).
Notation F := (turn_cost os).
Notation Q := (flat_cost os).

Lemma flat_ext x y z : (forall v, In v vs -> y v = z v) -> Q x y = Q x z.
Proof. intros H. destruct (line_twin groups os fs Hos Hso x) as (H1 & H2 & H3). apply (cost_ext (fun _ => raw_se2) _ _ H1 H2). rewrite H3. auto. Qed.
Lemma prox_turn beta x x' : 0 < beta -> prox os fs beta x x' -> F x' <= Q x x' /\ Q x x' <= F x /\ (Q x x' = F x -> settled os x) /\
  (settled os x -> forall v, In v vs -> x' v = x v) /\
  (forall z, Q x x' - Q x z <= beta * (dist2 vs z x - dist2 vs z x')).
Proof.
  intros Hb Hp. destruct (line_twin groups os fs Hos Hso x) as (H1 & H2 & H3). split; [apply cost_below|].
  destruct (prox_facts (fun _ => raw_se2) _ _ H1 H2 beta x x' Hb) as (P1 & P2 & P3); [intros z; rewrite H3; apply Hp|]. rewrite H3 in P2, P3.
  change (Q x x' <= Q x x) in P1. change (Q x x' = Q x x -> (forall v, In v vs -> x' v = x v) /\ forall z, Q x x <= Q x z) in P2.
  pose proof (flat_here os x) as Hh. split; [lra|]. split; [intros He; intros z; apply P2; lra|]. split; [|apply P3].
  intros Hs. apply P2. pose proof (Hs x'). lra.
Qed.
Lemma gn_angles val x val' : at_angles val x vs -> gauss_newton_turn E fs val val' -> exists x', at_angles val' x' vs /\ prox os fs (1 / 100000) x x'.
Proof.
  intros Hv (xi & Hd & Hm). exists (fun v => x v + first (xi v)). split; [eapply turn_moved; eauto; apply Hd | eapply turn_step; eauto].
Qed.
Lemma settled_ext x y : (forall v, In v vs -> x v = y v) -> settled os x -> settled os y.
Proof.
  intros H Hs z. assert (HU : forall o, In o os -> unwound x o = unwound y o).
  { intros o Ho. assert (Hv : exists f, In f fs /\ bearing_factor o f).
    { clear - Hos Ho. induction Hos as [|o' f' os' fs' H1 H2 IH]; [destruct Ho|]. destruct Ho as [<-|Ho]; [exists f'; split; [left|]; auto|]. destruct (IH H2 Ho) as (f & ? & ?). exists f. split; [right|]; auto. }
    destruct Hv as (f & Hf & Hof). assert (Ho' : offset x o = offset y o).
    { destruct o; cbn in Hof |- *.
      - subst f. rewrite (H v); auto. apply (vars_in _ _ _ Hf). left. auto.
      - apply between_inv in Hof. destruct Hof as (_ & ->). rewrite (H va), (H vb); auto; apply (vars_in _ _ _ Hf); cbn; auto. }
    unfold unwound. rewrite Ho'. reflexivity. }
  assert (HQ : forall w, Q y w = Q x w) by (intros w; unfold flat_cost; f_equal; apply map_ext_in; intros o Ho; symmetry; auto).
  rewrite !HQ. rewrite (flat_ext x y x) by (intros; symmetry; auto). apply Hs.
Qed.
Lemma gn_turning k val val' : turns (gauss_newton_turn E fs) k val val' -> forall x, at_angles val x vs ->
  exists x', at_angles val' x' vs /\ F x' <= F x /\ ((1 <= k)%nat -> F x' = F x -> settled os x) /\ (settled os x -> forall v, In v vs -> x' v = x v) /\
    (tame os (F x) -> F x' = Q x x' /\ forall z, INR k * (Q x x' - Q x z) + 1 / 100000 * dist2 vs z x' <= 1 / 100000 * dist2 vs z x).
Proof.
  induction 1 as [val|k val val1 val' H1 H IH]; intros x Hx.
  - exists x. split; auto. split; [lra|]. split; [lia|]. split; auto. intros _. split; [symmetry; apply flat_here|]. intros z. cbn. lra.
  - destruct (gn_angles val x val1 Hx H1) as (x1 & Hx1 & Hp). assert (Hb : 0 < 1 / 100000) by lra. destruct (prox_turn (1 / 100000) x x1 Hb Hp) as (P1 & P2 & P3 & P4 & P5).
    destruct (IH x1 Hx1) as (x' & A1 & A2 & A3 & A4 & A5). exists x'. split; auto. split; [lra|]. split; [intros _ He; apply P3; lra|]. split.
    + intros Hs v Hv. rewrite A4; auto. apply (settled_ext x x1); auto. intros u Hu. symmetry. auto.
    + intros Ht. assert (Ht1 : tame os (Q x x1)) by (intros o Ho; destruct (Ht o Ho); [left|right]; lra). destruct (tame_same os x x1 Ht1) as (T1 & T2).
      destruct A5 as (B1 & B2); [rewrite T1; auto|]. rewrite T2 in B1. split; auto. intros z. pose proof (B2 z) as B. rewrite !T2 in B. rewrite S_INR. pose proof (P5 z). lra.
Qed.

Section Lm.
Variable cfg : lm_cfg R.
Hypothesis Hq : lm_quality_min cfg <= 1.
Hypothesis Hf : 1 <= lambda_factor cfg.
Hypothesis Hmin : 0 < lambda_min cfg.
Variable Lam : R.
Definition lm_angles (b : book) (x : var -> R) : Prop :=
  at_angles (b_val b) x vs /\ at_angles (b_old b) x vs /\ 0 < b_extra b /\ (b_extra b <= Lam \/ settled os x).
Lemma at_angles_ext val x x' : (forall v, In v vs -> x' v = x v) -> at_angles val x' vs -> at_angles val x vs.
Proof. intros H Hv v Hin. rewrite (Hv v Hin). unfold headings. rewrite H; auto. Qed.
Lemma lm_angle b b' x : lm_angles b x -> lm_turn E fs cfg b b' -> exists x', lm_angles b' x' /\ F x' <= Q x x' <= F x /\ (F x' = F x -> settled os x) /\
  (settled os x -> forall v, In v vs -> x' v = x v) /\
  (settled os x' \/ forall z, Q x z <= Q x x' -> Q x x' - Q x z <= (Lam + 1 / 100000) * (dist2 vs z x - dist2 vs z x')).
Proof.
  intros (Hv & Ho & Hl & HL) (xi & p & Hd & Hm & Hdec). set (beta := b_extra b + 1 / 100000) in *. assert (Hb : 0 < beta) by (unfold beta; lra).
  pose proof (turn_step groups os fs Hos Hso beta (b_val b) (b_old b) x xi Hv Ho Hd) as Hp.
  set (x1 := fun v => x v + first (xi v)) in *.
  pose proof (turn_moved groups os fs Hos Hso (b_val b) x xi p Hv (proj1 Hd) Hm) as Hpl. fold x1 in Hpl.
  destruct (prox_turn _ _ _ Hb Hp) as (P1 & P2 & P3 & P4 & P5). pose proof (flat_here os x) as Hh.
  assert (Hqual : quality E fs (b_val b) (b_old b) xi p = (F x1 - F x) / (Q x x1 - F x)).
  { unfold quality. rewrite (turn_model groups os fs Hos Hso (b_val b) (b_old b) x xi Hv Ho (proj1 Hd)).
    rewrite (turn_cost_at groups os fs Hos Hso p x1 Hpl), (turn_cost_at groups os fs Hos Hso (b_val b) x Hv). reflexivity. }
  unfold decided in Hdec. cbn zeta in Hdec. rewrite Hqual in Hdec. destruct (Req_dec (Q x x1) (F x)) as [Heq|Hne].
  - pose proof (P3 Heq) as Hset. pose proof (at_angles_ext p x x1 (P4 Hset) Hpl) as Hpx. exists x. split.
    + destruct Hdec as [(_ & ->)|(_ & ->)]; (split; [cbn; auto|]; split; [cbn; auto|]; split; [|right; auto]); cbn.
      * apply Rdiv_lt_0_compat; lra.
      * eapply Rlt_le_trans; [exact Hmin | apply Rmax_l].
    + split; [lra|]. split; auto.
  - assert (Hneg : 0 < F x - Q x x1) by lra.
    assert (Hone : 1 <= (F x1 - F x) / (Q x x1 - F x)).
    { replace ((F x1 - F x) / (Q x x1 - F x)) with ((F x - F x1) / (F x - Q x x1)) by (field; lra). apply (Rmult_le_reg_r (F x - Q x x1)); [lra|]. unfold Rdiv. rewrite Rmult_assoc, Rinv_l, Rmult_1_r by lra. lra. }
    destruct Hdec as [(_ & ->)|(Hlt & _)]; [|lra].
    exists x1. assert (Hno : ~ settled os x) by (intros Hopt; pose proof (Hopt x1); lra). destruct HL as [HL|HL]; [|tauto].
    split; [split; [auto|]; split; [auto|]; cbn; split; [apply Rdiv_lt_0_compat; lra|]; left|].
    + apply (Rmult_le_reg_r (lambda_factor cfg)); [lra|]. unfold Rdiv. rewrite Rmult_assoc, Rinv_l, Rmult_1_r by lra. nra.
    + split; [lra|]. split; [lra|]. split; [tauto|]. right. intros z Hz. pose proof (P5 z). assert (0 <= dist2 vs z x - dist2 vs z x1) by (apply (Rmult_le_reg_l beta); lra).
      eapply Rle_trans; [apply P5|]. apply Rmult_le_compat_r; auto. unfold beta. lra.
Qed.
Lemma lm_turning k b b' : turns (lm_turn E fs cfg) k b b' -> forall x, lm_angles b x ->
  exists x', lm_angles b' x' /\ F x' <= F x /\ ((1 <= k)%nat -> F x' = F x -> settled os x) /\ (settled os x -> forall v, In v vs -> x' v = x v) /\
    (tame os (F x) -> F x' = Q x x' /\ forall z, Q x x' <= Q x z \/ INR k * (Q x x' - Q x z) + (Lam + 1 / 100000) * dist2 vs z x' <= (Lam + 1 / 100000) * dist2 vs z x).
Proof.
  induction 1 as [b|k b b1 b' H1 H IH]; intros x Hx.
  - exists x. split; auto. split; [lra|]. split; [lia|]. split; auto. intros _. split; [symmetry; apply flat_here|]. intros z. right. cbn. lra.
  - destruct (lm_angle b b1 x Hx H1) as (x1 & Hx1 & (P1 & P1') & P2 & P2' & P3). destruct (IH x1 Hx1) as (x' & A1 & A2 & A3 & A3' & A4). exists x'. split; auto. split; [lra|].
    split; [intros _ He; apply P2; lra|]. split.
    + intros Hs v Hv. rewrite A3'; auto. apply (settled_ext x x1); auto. intros u Hu. symmetry. auto.
    + intros Ht. assert (Ht1 : tame os (Q x x1)) by (intros o Ho; destruct (Ht o Ho); [left|right]; lra). destruct (tame_same os x x1 Ht1) as (T1 & T2).
      destruct A4 as (B1 & B2); [rewrite T1; auto|]. rewrite T2 in B1. split; auto.
      intros z. destruct (Rle_or_lt (Q x x') (Q x z)) as [|Hgt]; auto. destruct (B2 z) as [A|A]; rewrite !T2 in A; [lra|]. right.
      assert (Hle : Q x x' <= Q x x1) by lra.
      destruct P3 as [Hopt|P3]; [pose proof (Hopt z) as Hz; rewrite !T2 in Hz; lra|]. specialize (P3 z ltac:(lra)). rewrite S_INR. lra.
Qed.
End Lm.
End Runs.

Section Solves.
Variable groups : vty -> lie_ops R (list R).
Variable os : list bearing.
Variable fs : list (factor R).
Hypothesis Hos : Forall2 bearing_factor os fs.
Hypothesis Hso : Forall (so2_bearing groups) os.
Hypothesis Hne : os <> [].
Notation E := (pose_env groups).

Lemma angle_assigns a val x : assigns E fs a val -> at_angles val x (mentioned fs) -> assigns E fs a (headings x).
Proof. intros (ws & H1 & H2 & H3) Hv. exists ws. split; auto. split; auto. intros v Hin. rewrite H3 by auto. f_equal. apply Hv. apply H2. auto. Qed.
Lemma turn_reported g a x : graph_make E fs = Ok g -> assigns E fs a (headings x) -> exists r, compute_cost E g a = Ok (turn_cost os x, r).
Proof.
  intros Eg Ha. pose proof (turn_posed groups os fs Hos Hso Hne) as WP. destruct (bk_parts E fs g WP Eg) as (CO & Hok & Hws & Hg & Hnef & Hrd).
  destruct (update_holds E CO fs a _ Ha) as (a1 & Eu & Hh). destruct (cost_book E fs g WP Eg a1 _ Hh) as (Ec & Hl & _).
  destruct (one_cost E fs g Hok Hg a (headings x) Ha (fun f Hf => ws_residual E fs Hws _ f Hl Hf) Hnef) as (_ & Hc).
  destruct (one_cost E fs g Hok Hg a1 (headings x) (holds_assigns E fs a1 _ Hh) (fun f Hf => ws_residual E fs Hws _ f Hl Hf) Hnef) as (_ & Hc1).
  rewrite Hc1 in Ec. rewrite Hc, Ec. rewrite (turn_cost_at groups os fs Hos Hso (headings x) x) by (intros v _; auto). eauto.
Qed.
End Solves.

Lemma turn_gauss_newton : forall groups os fs init x, Forall2 bearing_factor os fs -> Forall (so2_bearing groups) os -> os <> [] ->
  assigns (pose_env groups) fs init (headings x) ->
  exists g r, graph_make (pose_env groups) fs = Ok g /\ compute_cost (pose_env groups) g init = Ok (turn_cost os x, r) /\
  (forall cfg fuel, (iteration_cap (max_iterations cfg) <= fuel)%nat ->
     exists a k, gn_solve (pose_env groups) fuel cfg cholmod_solve g init = Some (Ok a) /\ (1 <= k <= iteration_cap (max_iterations cfg))%nat /\
       improved (pose_env groups) fs g os x damping k a) /\
  (forall unroll it fuel, same_layout (as_layout init) (g_layout g) -> (1 <= it)%Z -> (Z.to_nat it <= fuel)%nat ->
     exists a, fixed_solve (pose_env groups) fuel unroll it cholmod_solve g init = Some (Ok a) /\ improved (pose_env groups) fs g os x damping (Z.to_nat it) a).
Proof.
  intros groups os fs init x Hos Hso Hne Hi. pose proof (turn_posed groups os fs Hos Hso Hne) as WP. destruct (posed_graph _ fs WP) as (_ & (g & Eg) & _).
  destruct (turn_reported groups os fs Hos Hso Hne g init x Eg Hi) as (r0 & Er0). exists g, r0. split; auto. split; auto.
  assert (Hx : at_angles (headings x) x (mentioned fs)) by (intros v _; auto).
  assert (Hrun : forall k a val', (1 <= k)%nat -> turns (gauss_newton_turn (pose_env groups) fs) k (headings x) val' -> assigns (pose_env groups) fs a val' ->
    improved (pose_env groups) fs g os x damping k a).
  { intros k a val' Hk Ht Ha. destruct (gn_turning groups os fs Hos Hso k _ _ Ht x Hx) as (x' & A1 & A2 & A3 & A4 & A5). pose proof (angle_assigns groups fs a val' x' Ha A1) as Hax.
    destruct (turn_reported groups os fs Hos Hso Hne g a x' Eg Hax) as (r & Er). exists x', r. split; auto. split; auto. split; auto. split.
    - intros Hn. destruct A2 as [|He]; auto. exfalso. auto.
    - split; auto. intros Htm. destruct (A5 Htm) as (B1 & B2). split; auto. intros z. pose proof (B2 z) as H. pose proof (dist_pos fs z x').
      assert (flat_cost os x x' - flat_cost os x z <= damping * dist2 (mentioned fs) z x / INR k) by (apply per_turn; auto; unfold damping in *; lra). lra. }
  split.
  - intros cfg fuel Hf. destruct (gn_solves _ fs g WP Eg cfg fuel init _ Hi Hf) as (a & k & val' & S1 & Hk & Ht & Ha). exists a, k. split; auto. split; auto. apply (Hrun k a val' ltac:(lia) Ht Ha).
  - intros unroll it fuel Hl Hit Hf. destruct (fixed_solves _ fs g WP Eg fuel unroll it init _ Hi Hl Hit Hf) as (a & val' & S1 & Ht & Ha). exists a. split; auto. apply (Hrun (Z.to_nat it) a val' ltac:(lia) Ht Ha).
Qed.

Lemma turn_levenberg_marquardt : forall groups os fs init x cfg fuel, Forall2 bearing_factor os fs -> Forall (so2_bearing groups) os -> os <> [] ->
  assigns (pose_env groups) fs init (headings x) -> (iteration_cap (max_iterations (lm_term cfg)) <= fuel)%nat ->
  0 < lambda_initial cfg -> 1 <= lambda_factor cfg -> 0 < lambda_min cfg -> lm_quality_min cfg <= 1 ->
  exists g a k, graph_make (pose_env groups) fs = Ok g /\
    lm_solve (pose_env groups) fuel cfg cholmod_solve g init = Some (Ok a) /\ (1 <= k <= iteration_cap (max_iterations (lm_term cfg)))%nat /\
    improved (pose_env groups) fs g os x (lambda_initial cfg + damping) k a.
Proof.
  intros groups os fs init x cfg fuel Hos Hso Hne Hi Hf H1 H2 H3 H4. pose proof (turn_posed groups os fs Hos Hso Hne) as WP. destruct (posed_graph _ fs WP) as (_ & (g & Eg) & _).
  assert (Hx : at_angles (headings x) x (mentioned fs)) by (intros v _; auto).
  destruct (lm_solves _ fs g WP Eg cfg fuel init _ Hi Hf H1 ltac:(lra) H3) as (a & k & b' & S1 & Hk & Ht & Ha).
  assert (Hb0 : lm_angles os fs (lambda_initial cfg) (mkBook (headings x) (headings x) (lambda_initial cfg)) x) by (split; [auto|]; split; [auto|]; cbn; split; [auto | left; lra]).
  destruct (lm_turning groups os fs Hos Hso cfg H4 H2 H3 (lambda_initial cfg) k _ b' Ht x Hb0) as (x' & (L1 & _) & A2 & A3 & A3' & A4).
  pose proof (angle_assigns groups fs a _ x' Ha L1) as Hax. destruct (turn_reported groups os fs Hos Hso Hne g a x' Eg Hax) as (r & Er).
  exists g, a, k. split; auto. split; auto. split; auto. exists x', r. split; auto. split; auto. split; auto. split.
  - intros Hn. destruct A2 as [|He]; auto. exfalso. apply Hn, A3; auto. lia.
  - split; auto. intros Htm. destruct (A4 Htm) as (B1 & B2). split; auto. intros z. pose proof (dist_pos fs z x'). pose proof (dist_pos fs z x). assert (0 < INR k) by (apply lt_0_INR; lia).
    assert (Hpos : 0 <= (lambda_initial cfg + damping) * dist2 (mentioned fs) z x / INR k).
    { apply Rmult_le_pos; [apply Rmult_le_pos; [unfold damping; lra | auto] | apply Rlt_le, Rinv_0_lt_compat; auto]. }
    destruct (B2 z) as [|A]; [lra|].
    assert (flat_cost os x x' - flat_cost os x z <= (lambda_initial cfg + damping) * dist2 (mentioned fs) z x / INR k); [|lra].
    apply per_turn; [lia|]. unfold damping in *. assert (0 <= (lambda_initial cfg + 1 / 100000) * dist2 (mentioned fs) z x') by (apply Rmult_le_pos; lra). lra.
Qed.

(* every normalised SO2 value is a heading *)
Lemma all_headings : forall (p : list R), length p = 2%nat -> norm2 p = 1 -> exists t, - PI < t <= PI /\ p = [cos t; sin t].
Proof.
  intros p Hl Hn. destruct p as [|c [|s [|]]]; try discriminate. unfold norm2 in Hn. cbn [nth] in Hn. exists (angle (mkRot c s Hn)). split; [apply angle_bound|].
  rewrite cos_angle, sin_angle. reflexivity.
Qed.

(* five rotations in a ring, each measured to be equal to the next, wound once around *)
Definition ring_var (i : nat) : var := mkVar i 0%nat.
Definition ring_vars : list var := map ring_var [0%nat; 1%nat; 2%nat; 3%nat; 4%nat].
Definition ring : list bearing := [Turn (ring_var 0) (ring_var 1) 0 1; Turn (ring_var 1) (ring_var 2) 0 1; Turn (ring_var 2) (ring_var 3) 0 1; Turn (ring_var 3) (ring_var 4) 0 1; Turn (ring_var 4) (ring_var 0) 0 1].
Definition ring_fs : list (factor R) := map (fun o => match o with Heading v mu w => prior_make v (facing (v_ty v) mu) (diag1 w) | Turn va vb d w => mkFactor 1%nat [va; vb] (diag1 w) [facing (v_ty va) d] end) ring.
Definition so2s (_ : vty) : lie_ops R (list R) := raw_so2.
Definition wound (v : var) : R := 2 * PI / 5 * INR (v_id v).
Lemma ring_ok : Forall2 bearing_factor ring ring_fs /\ Forall (so2_bearing so2s) ring /\ ring <> [].
Proof. split; [repeat constructor|]. split; [repeat constructor|]. discriminate. Qed.
Lemma ring_assign (x : var -> R) : exists a, assigns (pose_env so2s) ring_fs a (headings x).
Proof.
  exists (mkAssign (flat_map (fun v => [cos (x v); sin (x v)]) ring_vars) (make_layout (lie_class so2s) ring_vars false)). exists ring_vars.
  split; [split; [repeat constructor; cbn; intuition discriminate | split; reflexivity]|]. split.
  - intros v. change (mentioned ring_fs) with ring_vars. tauto.
  - intros v [<-|[<-|[<-|[<-|[<-|[]]]]]]; reflexivity.
Qed.
Lemma ring_wraps o : In o ring -> wrap (offset wound o) = - (2 * PI / 5).
Proof.
  pose proof PI_RGT_0 as Hpi. assert (H : forall t, t = - (2 * PI / 5) -> wrap t = - (2 * PI / 5)) by (intros t ->; apply wrap_small; lra).
  intros [<-|[<-|[<-|[<-|[<-|[]]]]]]; cbn [offset]; unfold wound; cbn [v_id ring_var INR]; try (apply H; lra).
  transitivity (wrap (- (2 * PI / 5))); [|apply H; auto]. destruct (cos_turns (- (2 * PI / 5)) 1) as (H1 & H2).
  replace (0 - (2 * PI / 5 * 0 - 2 * PI / 5 * (1 + 1 + 1 + 1))) with (- (2 * PI / 5) + 2 * PI * IZR 1) by (cbn; field). apply wrap_ext; auto.
Qed.
Lemma ring_flat z : exists e0 e1 e2 e3, flat_cost ring wound z = 4 * PI * PI / 5 + e0 * e0 + e1 * e1 + e2 * e2 + e3 * e3 + (e0 + e1 + e2 + e3) * (e0 + e1 + e2 + e3).
Proof.
  exists (offset z (Turn (ring_var 0) (ring_var 1) 0 1) - offset wound (Turn (ring_var 0) (ring_var 1) 0 1)),
    (offset z (Turn (ring_var 1) (ring_var 2) 0 1) - offset wound (Turn (ring_var 1) (ring_var 2) 0 1)),
    (offset z (Turn (ring_var 2) (ring_var 3) 0 1) - offset wound (Turn (ring_var 2) (ring_var 3) 0 1)),
    (offset z (Turn (ring_var 3) (ring_var 4) 0 1) - offset wound (Turn (ring_var 3) (ring_var 4) 0 1)).
  unfold flat_cost, line_cost. rewrite map_map.
  transitivity (vsum (map (fun o => (- (2 * PI / 5) + (offset z o - offset wound o)) * (- (2 * PI / 5) + (offset z o - offset wound o))) ring)).
  - apply vsum_map_ext. intros o Ho. rewrite unwound_error, (ring_wraps o Ho). assert (weight o = 1) as -> by (destruct Ho as [<-|[<-|[<-|[<-|[<-|[]]]]]]; reflexivity). ring.
  - unfold ring. cbn [map]. rewrite !vsum_cons. change (vsum (@nil R)) with 0. cbn [offset]. field.
Qed.
Lemma ring_cost : turn_cost ring wound = 4 * PI * PI / 5 /\ settled ring wound /\ tame ring (turn_cost ring wound) /\ turn_cost ring (fun _ => 0) = 0.
Proof.
  assert (H0 : turn_cost ring wound = 4 * PI * PI / 5).
  { unfold turn_cost. transitivity (vsum (map (fun _ : bearing => (2 * PI / 5) * (2 * PI / 5)) ring)).
    - apply vsum_map_ext. intros o Ho. rewrite (ring_wraps o Ho). assert (weight o = 1) as -> by (destruct Ho as [<-|[<-|[<-|[<-|[<-|[]]]]]]; reflexivity). ring.
    - unfold ring. cbn [map]. rewrite !vsum_cons. change (vsum (@nil R)) with 0. field. }
  split; auto. split; [|split].
  - intros z. rewrite flat_here, H0. destruct (ring_flat z) as (e0 & e1 & e2 & e3 & ->). pose proof (Rle_0_sqr e0). pose proof (Rle_0_sqr e1). pose proof (Rle_0_sqr e2). pose proof (Rle_0_sqr e3). pose proof (Rle_0_sqr (e0 + e1 + e2 + e3)). unfold Rsqr in *. lra.
  - intros o Ho. right. rewrite H0. assert (weight o = 1) as -> by (destruct Ho as [<-|[<-|[<-|[<-|[<-|[]]]]]]; reflexivity). pose proof PI_RGT_0. nra.
  - unfold turn_cost. transitivity (vsum (map (fun _ : bearing => 0) ring)); [|unfold ring; cbn [map]; rewrite !vsum_cons; change (vsum (@nil R)) with 0; ring].
    apply vsum_map_ext. intros o Ho. replace (offset (fun _ => 0) o) with 0 by (destruct Ho as [<-|[<-|[<-|[<-|[<-|[]]]]]]; cbn; ring). rewrite wrap_small by (pose proof PI_RGT_0; lra). ring.
Qed.
Lemma ring_stuck : exists groups os fs g init x, Forall2 bearing_factor os fs /\ Forall (so2_bearing groups) os /\ os <> [] /\
  graph_make (pose_env groups) fs = Ok g /\ assigns (pose_env groups) fs init (headings x) /\ tame os (turn_cost os x) /\
  (forall cfg fuel, (iteration_cap (max_iterations cfg) <= fuel)%nat ->
     exists a r, gn_solve (pose_env groups) fuel cfg cholmod_solve g init = Some (Ok a) /\ compute_cost (pose_env groups) g a = Ok (4 * PI * PI / 5, r)) /\
  (forall cfg fuel, (iteration_cap (max_iterations (lm_term cfg)) <= fuel)%nat -> 0 < lambda_initial cfg -> 1 <= lambda_factor cfg -> 0 < lambda_min cfg -> lm_quality_min cfg <= 1 ->
     exists a r, lm_solve (pose_env groups) fuel cfg cholmod_solve g init = Some (Ok a) /\ compute_cost (pose_env groups) g a = Ok (4 * PI * PI / 5, r)) /\
  exists b r, assigns (pose_env groups) fs b (headings (fun _ => 0)) /\ compute_cost (pose_env groups) g b = Ok (0, r).
Proof.
  destruct ring_ok as (H1 & H2 & H3). destruct ring_cost as (C1 & C2 & C3 & C4). destruct (ring_assign wound) as (init & Hi). destruct (ring_assign (fun _ => 0)) as (b & Hb).
  destruct (turn_gauss_newton so2s ring ring_fs init wound H1 H2 H3 Hi) as (g & r0 & Eg & _ & HG & _).
  assert (Him : forall beta k a, improved (pose_env so2s) ring_fs g ring wound beta k a -> exists r, compute_cost (pose_env so2s) g a = Ok (4 * PI * PI / 5, r)).
  { intros beta k a (x' & r & A1 & A2 & A3 & A4 & A5 & A6). destruct (A6 C3) as (B1 & _). rewrite A2, B1. rewrite (flat_ext so2s ring ring_fs H1 H2 wound x' wound) by (apply A5, C2). rewrite flat_here, C1. eauto. }
  exists so2s, ring, ring_fs, g, init, wound. split; auto. split; auto. split; auto. split; auto. split; auto. split; auto. split; [|split].
  - intros cfg fuel Hf. destruct (HG cfg fuel Hf) as (a & k & S1 & _ & S2). destruct (Him _ _ _ S2) as (r & Hr). eauto.
  - intros cfg fuel Hf L1 L2 L3 L4. destruct (turn_levenberg_marquardt so2s ring ring_fs init wound cfg fuel H1 H2 H3 Hi Hf L1 L2 L3 L4) as (g' & a & k & Eg' & S1 & _ & S2). rewrite Eg in Eg'. injection Eg' as <-.
    destruct (Him _ _ _ S2) as (r & Hr). eauto.
  - exists b. destruct (turn_reported so2s ring ring_fs H1 H2 H3 g b (fun _ => 0) Eg Hb) as (r & Hr). rewrite C4 in Hr. eauto.
Qed.

(* two rotations measured to be 0 and 2 with a turn of 1 between them, both started at 0 *)
Definition two_turns : list bearing := [Heading (ring_var 0) 0 1; Heading (ring_var 1) 2 1; Turn (ring_var 0) (ring_var 1) 1 1].
Definition two_turns_fs : list (factor R) := [prior_make (ring_var 0) (facing 0%nat 0) (diag1 1); prior_make (ring_var 1) (facing 0%nat 2) (diag1 1); mkFactor 1%nat [ring_var 0; ring_var 1] (diag1 1) [facing 0%nat 1]].
Lemma two_turns_case : Forall2 bearing_factor two_turns two_turns_fs /\ Forall (so2_bearing so2s) two_turns /\
  turn_cost two_turns (fun _ => 0) = 5 /\ tame two_turns (turn_cost two_turns (fun _ => 0)) /\ ~ settled two_turns (fun _ => 0) /\
  flat_cost two_turns (fun _ => 0) simple_best = 1 / 3 /\ exists init, assigns (pose_env so2s) two_turns_fs init (headings (fun _ => 0)).
Proof.
  assert (Hpi : 3 < PI) by (pose proof PI2_3_2; unfold PI2 in *; lra).
  split; [repeat constructor|]. split; [repeat constructor|].
  assert (W : forall t, - PI < t <= PI -> wrap t = t) by apply wrap_small.
  assert (H5 : turn_cost two_turns (fun _ => 0) = 5).
  { unfold turn_cost, two_turns. cbn [map]. rewrite !vsum_cons. change (vsum (@nil R)) with 0. cbn [weight offset]. rewrite !W by lra. ring. }
  assert (Hb : flat_cost two_turns (fun _ => 0) simple_best = 1 / 3).
  { unfold flat_cost, line_cost, two_turns. cbn [map]. rewrite !vsum_cons. change (vsum (@nil R)) with 0. rewrite !unwound_error. cbn [weight offset]. rewrite !W by lra. unfold simple_best. cbn. field. }
  split; auto. split; [|split; [|split; auto]].
  - intros o Ho. right. rewrite H5. assert (weight o = 1) as -> by (destruct Ho as [<-|[<-|[<-|[]]]]; reflexivity). nra.
  - intros Hs. pose proof (Hs simple_best) as H. rewrite flat_here, H5, Hb in H. lra.
  - exists (mkAssign [cos 0; sin 0; cos 0; sin 0] (make_layout (lie_class so2s) [ring_var 0; ring_var 1] false)), [ring_var 0; ring_var 1].
    split; [split; [repeat constructor; cbn; intuition discriminate | split; reflexivity]|]. split; [intros v; change (mentioned two_turns_fs) with [ring_var 0; ring_var 1]; tauto|].
    intros v [<-|[<-|[]]]; reflexivity.
Qed.
