(* Bundled statements and a concrete instance for straight-line pose graphs. *)
From Coq Require Import List Arith Bool Lia Permutation Reals Lra ZArith.
From Verif Require Import Num NumR Py Arr MLayout MAssign MNoise MSparse MFactor MGraph MLinear MSolver MLie MPose SpecLayout SpecTree SpecAssign SpecGraph SpecSparse SpecNoise SpecDeriv SpecOrder SpecInv SpecSolver SpecTwin SpecLie SpecPose SpecBook SpecOutlier SpecStraight.
From Verif Require Import PBase PVec PLayout PNoise PGraph PHold POrder POrder2 PSolver PSolver2 PSolverR PDescent PTotal PPose PExAssign PExGraph PExInv PExScript PBook PExBook POutlier PStraight.
Import ListNotations.
Local Open Scope R_scope.

Section Runs.
Variable groups : vty -> lie_ops R (list R).
Notation E := (pose_env groups).
Variable os : list sight.
Variable fs : list (factor R).
Hypothesis Hos : Forall2 sight_factor os fs.
Hypothesis Hse : Forall (se2_sight groups) os.
Notation vs := (mentioned fs).
Notation Q := (line_cost os).

Definition optimal (x : var -> R) : Prop := forall z, Q x <= Q z.
Lemma prox_facts beta x x' : 0 < beta -> proximal os fs beta x x' -> Q x' <= Q x /\ (Q x' = Q x -> (forall v, In v vs -> x' v = x v) /\ optimal x) /\
  (forall z, Q x' - Q z <= beta * (dist2 vs z x - dist2 vs z x')).
Proof.
  intros Hb Hp. assert (H0 : dist2 vs x x = 0).
  { unfold dist2. generalize vs. intros l. induction l; cbn [map]; [reflexivity|]. rewrite vsum_cons, IHl. ring. }
  pose proof (Hp x) as H1. rewrite H0 in H1. pose proof (dist_pos fs x' x) as Hd. split; [nra|]. split.
  - intros Heq. assert (Hz : dist2 vs x' x = 0) by nra.
    assert (Hx : forall v, In v vs -> x' v = x v).
    { revert Hz. unfold dist2. generalize vs. intros l. induction l as [|v l IH]; intros Hz u Hu; [destruct Hu|]. cbn [map] in Hz. rewrite vsum_cons in Hz.
      assert (P : 0 <= vsum (map (fun v0 => (x' v0 - x v0) * (x' v0 - x v0)) l)) by (apply vsum_nonneg; intros; apply Rle_0_sqr).
      assert (P2 : 0 <= (x' v - x v) * (x' v - x v)) by apply Rle_0_sqr. destruct Hu as [<-|Hu]; [|apply IH; auto; lra].
      assert (Hs : Rsqr (x' v - x v) = 0) by (unfold Rsqr; lra). apply Rsqr_0_uniq in Hs. lra. }
    split; auto. intros z. pose proof (three_points groups os fs Hos Hse beta x x' z ltac:(lra) Hp) as H3.
    assert (dist2 vs z x' = dist2 vs z x) by (unfold dist2; apply vsum_map_ext; intros v Hv; rewrite Hx; auto). nra.
  - intros z. pose proof (three_points groups os fs Hos Hse beta x x' z ltac:(lra) Hp). nra.
Qed.

Lemma gn_run k val val' : turns (gauss_newton_turn E fs) k val val' -> forall x, at_line val x vs ->
  exists x', at_line val' x' vs /\ Q x' <= Q x /\ ((1 <= k)%nat -> Q x' = Q x -> optimal x) /\
    forall z, INR k * (Q x' - Q z) + 1 / 100000 * dist2 vs z x' <= 1 / 100000 * dist2 vs z x.
Proof.
  induction 1 as [val|k val val1 val' H1 H IH]; intros x Hx.
  - exists x. split; auto. split; [lra|]. split; [lia|]. intros z. cbn. lra.
  - destruct (gn_straight groups os fs Hos Hse val x val1 Hx H1) as (x1 & Hx1 & Hp). assert (Hb : 0 < 1 / 100000) by lra. destruct (prox_facts (1 / 100000) x x1 Hb Hp) as (P1 & P2 & P3).
    destruct (IH x1 Hx1) as (x' & A1 & A2 & A3 & A4). exists x'. split; auto. split; [lra|]. split; [intros _ He; apply P2; lra|].
    intros z. rewrite S_INR. pose proof (A4 z). pose proof (P3 z). lra.
Qed.

Section Lm.
Variable cfg : lm_cfg R.
Hypothesis Hq : lm_quality_min cfg <= 1.
Hypothesis Hf : 1 <= lambda_factor cfg.
Hypothesis Hmin : 0 < lambda_min cfg.
Variable Lam : R.
Definition lm_line (b : book) (x : var -> R) : Prop :=
  at_line (b_val b) x vs /\ at_line (b_old b) x vs /\ 0 < b_extra b /\ (b_extra b <= Lam \/ optimal x).
Lemma at_line_ext val x x' : (forall v, In v vs -> x' v = x v) -> at_line val x' vs -> at_line val x vs.
Proof. intros H Hv v Hin. rewrite (Hv v Hin). unfold along_x. rewrite H; auto. Qed.
Lemma lm_one b b' x : lm_line b x -> lm_turn E fs cfg b b' -> exists x', lm_line b' x' /\ Q x' <= Q x /\ (Q x' = Q x -> optimal x) /\
  (optimal x' \/ forall z, Q z <= Q x' -> Q x' - Q z <= (Lam + 1 / 100000) * (dist2 vs z x - dist2 vs z x')).
Proof.
  intros (Hv & Ho & Hl & HL) (xi & p & Hd & Hm & Hdec). set (beta := b_extra b + 1 / 100000) in *. assert (Hb : 0 < beta) by (unfold beta; lra).
  destruct (straight_step groups os fs Hos Hse beta (b_val b) (b_old b) x xi Hb Hv Ho Hd) as (Hag & Hp & Hs0).
  set (x1 := fun v => x v + first (xi v)) in *.
  pose proof (straight_moved groups os fs Hos Hse (b_val b) x xi p Hv Hag Hm) as Hpl. fold x1 in Hpl.
  destruct (prox_facts _ _ _ Hb Hp) as (P1 & P2 & P3).
  assert (Hqual : quality E fs (b_val b) (b_old b) xi p = (Q x1 - Q x) / (Q x1 - Q x)).
  { unfold quality. rewrite (straight_model groups os fs Hos Hse (b_val b) (b_old b) x xi Hv Ho (proj1 Hd)), Hs0, Rplus_0_r.
    rewrite (straight_cost groups os fs Hos Hse p x1 Hpl), (straight_cost groups os fs Hos Hse (b_val b) x Hv). reflexivity. }
  unfold decided in Hdec. cbn zeta in Hdec. rewrite Hqual in Hdec. destruct (Req_dec (Q x1) (Q x)) as [Heq|Hne].
  - destruct (P2 Heq) as (Hx & Hopt). pose proof (at_line_ext p x x1 Hx Hpl) as Hpx. exists x. split.
    + destruct Hdec as [(_ & ->)|(_ & ->)]; (split; [cbn; auto|]; split; [cbn; auto|]; split; [|right; auto]); cbn.
      * apply Rdiv_lt_0_compat; lra.
      * eapply Rlt_le_trans; [exact Hmin | apply Rmax_l].
    + split; [lra|]. split; auto.
  - assert (Hone : (Q x1 - Q x) / (Q x1 - Q x) = 1) by (field; lra). rewrite Hone in Hdec. destruct Hdec as [(_ & ->)|(Hlt & _)]; [|lra].
    exists x1. assert (Hno : ~ optimal x) by (intros Hopt; pose proof (Hopt x1); lra). destruct HL as [HL|HL]; [|tauto].
    split; [split; [auto|]; split; [auto|]; cbn; split; [apply Rdiv_lt_0_compat; lra|]; left|].
    + apply (Rmult_le_reg_r (lambda_factor cfg)); [lra|]. unfold Rdiv. rewrite Rmult_assoc, Rinv_l, Rmult_1_r by lra. nra.
    + split; [lra|]. split; [lra|]. right. intros z Hz. pose proof (P3 z). assert (0 <= dist2 vs z x - dist2 vs z x1) by (apply (Rmult_le_reg_l beta); lra).
      eapply Rle_trans; [apply P3|]. apply Rmult_le_compat_r; auto. unfold beta. lra.
Qed.
Lemma lm_run k b b' : turns (lm_turn E fs cfg) k b b' -> forall x, lm_line b x ->
  exists x', lm_line b' x' /\ Q x' <= Q x /\ ((1 <= k)%nat -> Q x' = Q x -> optimal x) /\
    forall z, Q x' <= Q z \/ INR k * (Q x' - Q z) + (Lam + 1 / 100000) * dist2 vs z x' <= (Lam + 1 / 100000) * dist2 vs z x.
Proof.
  induction 1 as [b|k b b1 b' H1 H IH]; intros x Hx.
  - exists x. split; auto. split; [lra|]. split; [lia|]. intros z. right. cbn. lra.
  - destruct (lm_one b b1 x Hx H1) as (x1 & Hx1 & P1 & P2 & P3). destruct (IH x1 Hx1) as (x' & A1 & A2 & A3 & A4). exists x'. split; auto. split; [lra|].
    split; [intros _ He; apply P2; lra|]. intros z. destruct (Rle_or_lt (Q x') (Q z)) as [|Hgt]; auto. destruct (A4 z) as [|A]; [lra|]. right.
    destruct P3 as [Hopt|P3]; [pose proof (Hopt z); lra|]. specialize (P3 z ltac:(lra)). rewrite S_INR. lra.
Qed.
End Lm.
End Runs.

Lemma per_turn k c d : (1 <= k)%nat -> INR k * d <= c -> d <= c / INR k.
Proof.
  intros Hk H. assert (0 < INR k) by (apply lt_0_INR; lia). apply (Rmult_le_reg_l (INR k)); auto. replace (INR k * (c / INR k)) with c by (field; lra). auto.
Qed.

Section Solves.
Variable groups : vty -> lie_ops R (list R).
Variable os : list sight.
Variable fs : list (factor R).
Hypothesis Hos : Forall2 sight_factor os fs.
Hypothesis Hse : Forall (se2_sight groups) os.
Hypothesis Hne : os <> [].
Notation E := (pose_env groups).

Lemma line_assigns a val x : assigns E fs a val -> at_line val x (mentioned fs) -> assigns E fs a (along_x x).
Proof. intros (ws & H1 & H2 & H3) Hv. exists ws. split; auto. split; auto. intros v Hin. rewrite H3 by auto. f_equal. apply Hv. apply H2. auto. Qed.
Lemma reported g a x : graph_make E fs = Ok g -> assigns E fs a (along_x x) -> exists r, compute_cost E g a = Ok (line_cost os x, r).
Proof.
  intros Eg Ha. pose proof (straight_posed groups os fs Hos Hse Hne) as WP. destruct (bk_parts E fs g WP Eg) as (CO & Hok & Hws & Hg & Hnef & Hrd).
  destruct (update_holds E CO fs a _ Ha) as (a1 & Eu & Hh). destruct (cost_book E fs g WP Eg a1 _ Hh) as (Ec & Hl & _).
  destruct (one_cost E fs g Hok Hg a (along_x x) Ha (fun f Hf => ws_residual E fs Hws _ f Hl Hf) Hnef) as (_ & Hc).
  destruct (one_cost E fs g Hok Hg a1 (along_x x) (holds_assigns E fs a1 _ Hh) (fun f Hf => ws_residual E fs Hws _ f Hl Hf) Hnef) as (_ & Hc1).
  rewrite Hc1 in Ec. rewrite Hc, Ec. rewrite (straight_cost groups os fs Hos Hse (along_x x) x) by (intros v _; auto). eauto.
Qed.
End Solves.

Lemma line_gauss_newton : forall groups os fs init x, Forall2 sight_factor os fs -> Forall (se2_sight groups) os -> os <> [] ->
  assigns (pose_env groups) fs init (along_x x) ->
  exists g, graph_make (pose_env groups) fs = Ok g /\
  (forall cfg fuel, (iteration_cap (max_iterations cfg) <= fuel)%nat ->
     exists a k x' r, gn_solve (pose_env groups) fuel cfg cholmod_solve g init = Some (Ok a) /\ (1 <= k <= iteration_cap (max_iterations cfg))%nat /\
       assigns (pose_env groups) fs a (along_x x') /\ compute_cost (pose_env groups) g a = Ok (line_cost os x', r) /\
       ((exists z, line_cost os z < line_cost os x) -> line_cost os x' < line_cost os x) /\
       forall z, line_cost os x' <= line_cost os z + damping * dist2 (mentioned fs) z x / INR k) /\
  (forall unroll it fuel, same_layout (as_layout init) (g_layout g) -> (1 <= it)%Z -> (Z.to_nat it <= fuel)%nat ->
     exists a x' r, fixed_solve (pose_env groups) fuel unroll it cholmod_solve g init = Some (Ok a) /\
       assigns (pose_env groups) fs a (along_x x') /\ compute_cost (pose_env groups) g a = Ok (line_cost os x', r) /\
       ((exists z, line_cost os z < line_cost os x) -> line_cost os x' < line_cost os x) /\
       forall z, line_cost os x' <= line_cost os z + damping * dist2 (mentioned fs) z x / INR (Z.to_nat it)).
Proof.
  intros groups os fs init x Hos Hse Hne Hi. pose proof (straight_posed groups os fs Hos Hse Hne) as WP. destruct (posed_graph _ fs WP) as (_ & (g & Eg) & _). exists g. split; auto.
  assert (Hx : at_line (along_x x) x (mentioned fs)) by (intros v _; auto).
  assert (Hrun : forall k a val', (1 <= k)%nat -> turns (gauss_newton_turn (pose_env groups) fs) k (along_x x) val' -> assigns (pose_env groups) fs a val' ->
    exists x' r, assigns (pose_env groups) fs a (along_x x') /\ compute_cost (pose_env groups) g a = Ok (line_cost os x', r) /\
       ((exists z, line_cost os z < line_cost os x) -> line_cost os x' < line_cost os x) /\
       forall z, line_cost os x' <= line_cost os z + damping * dist2 (mentioned fs) z x / INR k).
  { intros k a val' Hk Ht Ha. destruct (gn_run groups os fs Hos Hse k _ _ Ht x Hx) as (x' & A1 & A2 & A3 & A4). pose proof (line_assigns groups fs a val' x' Ha A1) as Hax.
    destruct (reported groups os fs Hos Hse Hne g a x' Eg Hax) as (r & Er). exists x', r. split; auto. split; auto. split.
    - intros (z & Hz). destruct A2 as [|He]; auto. pose proof (A3 Hk He z). lra.
    - intros z. pose proof (A4 z) as H. pose proof (dist_pos fs z x'). assert (line_cost os x' - line_cost os z <= damping * dist2 (mentioned fs) z x / INR k) by (apply per_turn; auto; unfold damping in *; lra). lra. }
  split.
  - intros cfg fuel Hf. destruct (gn_solves _ fs g WP Eg cfg fuel init _ Hi Hf) as (a & k & val' & S1 & Hk & Ht & Ha). destruct (Hrun k a val' ltac:(lia) Ht Ha) as (x' & r & H). exists a, k, x', r. auto.
  - intros unroll it fuel Hl Hit Hf. destruct (fixed_solves _ fs g WP Eg fuel unroll it init _ Hi Hl Hit Hf) as (a & val' & S1 & Ht & Ha). destruct (Hrun (Z.to_nat it) a val' ltac:(lia) Ht Ha) as (x' & r & H). exists a, x', r. auto.
Qed.

Lemma line_levenberg_marquardt : forall groups os fs init x cfg fuel, Forall2 sight_factor os fs -> Forall (se2_sight groups) os -> os <> [] ->
  assigns (pose_env groups) fs init (along_x x) -> (iteration_cap (max_iterations (lm_term cfg)) <= fuel)%nat ->
  0 < lambda_initial cfg -> 1 <= lambda_factor cfg -> 0 < lambda_min cfg -> lm_quality_min cfg <= 1 ->
  exists g a k x' r, graph_make (pose_env groups) fs = Ok g /\
    lm_solve (pose_env groups) fuel cfg cholmod_solve g init = Some (Ok a) /\ (1 <= k <= iteration_cap (max_iterations (lm_term cfg)))%nat /\
    assigns (pose_env groups) fs a (along_x x') /\ compute_cost (pose_env groups) g a = Ok (line_cost os x', r) /\
    ((exists z, line_cost os z < line_cost os x) -> line_cost os x' < line_cost os x) /\
    forall z, line_cost os x' <= line_cost os z + (lambda_initial cfg + damping) * dist2 (mentioned fs) z x / INR k.
Proof.
  intros groups os fs init x cfg fuel Hos Hse Hne Hi Hf H1 H2 H3 H4. pose proof (straight_posed groups os fs Hos Hse Hne) as WP. destruct (posed_graph _ fs WP) as (_ & (g & Eg) & _).
  assert (Hx : at_line (along_x x) x (mentioned fs)) by (intros v _; auto).
  destruct (lm_solves _ fs g WP Eg cfg fuel init _ Hi Hf H1 ltac:(lra) H3) as (a & k & b' & S1 & Hk & Ht & Ha).
  assert (Hb0 : lm_line os fs (lambda_initial cfg) (mkBook (along_x x) (along_x x) (lambda_initial cfg)) x) by (split; [auto|]; split; [auto|]; cbn; split; [auto | left; lra]).
  destruct (lm_run groups os fs Hos Hse cfg H4 H2 H3 (lambda_initial cfg) k _ b' Ht x Hb0) as (x' & (L1 & _) & A2 & A3 & A4).
  pose proof (line_assigns groups fs a _ x' Ha L1) as Hax. destruct (reported groups os fs Hos Hse Hne g a x' Eg Hax) as (r & Er).
  exists g, a, k, x', r. split; auto. split; auto. split; auto. split; auto. split; auto. split.
  - intros (z & Hz). destruct A2 as [|He]; auto. pose proof (A3 ltac:(lia) He z). lra.
  - intros z. pose proof (dist_pos fs z x'). pose proof (dist_pos fs z x). assert (0 < INR k) by (apply lt_0_INR; lia).
    assert (Hpos : 0 <= (lambda_initial cfg + damping) * dist2 (mentioned fs) z x / INR k).
    { apply Rmult_le_pos; [apply Rmult_le_pos; [unfold damping; lra | auto] | apply Rlt_le, Rinv_0_lt_compat; auto]. }
    destruct (A4 z) as [|A]; [lra|].
    assert (line_cost os x' - line_cost os z <= (lambda_initial cfg + damping) * dist2 (mentioned fs) z x / INR k); [|lra].
    apply per_turn; [lia|]. unfold damping in *. assert (0 <= (lambda_initial cfg + 1 / 100000) * dist2 (mentioned fs) z x') by (apply Rmult_le_pos; lra). lra.
Qed.

(* the graph of the tests and of scripts/pose_graph_simple.py *)
Definition pose_a : var := mkVar 0%nat 0%nat.
Definition pose_b : var := mkVar 1%nat 0%nat.
Definition simple : list sight := [Seen pose_a 0 1 1 1; Seen pose_b 2 1 1 1; Apart pose_a pose_b 1 1 1 1].
Definition simple_fs : list (factor R) :=
  [prior_make pose_a (at_xy 0%nat 0 0) (diag3 1 1 1); prior_make pose_b (at_xy 0%nat 2 0) (diag3 1 1 1); mkFactor 1%nat [pose_a; pose_b] (diag3 1 1 1) [at_xy 0%nat 1 0]].
Definition simple_best (v : var) : R := if Nat.eqb (v_id v) 0%nat then 1 / 3 else 5 / 3.
Lemma simple_case : let groups := fun _ : vty => raw_se2 in
  Forall2 sight_factor simple simple_fs /\ Forall (se2_sight groups) simple /\
  line_cost simple (fun _ => 0) = 5 /\ line_cost simple simple_best = 1 / 3 /\ (forall z, 1 / 3 <= line_cost simple z) /\
  dist2 (mentioned simple_fs) simple_best (fun _ => 0) = 26 / 9 /\
  exists init, make_from_defaults (lie_class groups) [pose_a; pose_b] = Ok init /\ assigns (pose_env groups) simple_fs init (along_x (fun _ => 0)).
Proof.
  cbn zeta. split; [repeat constructor|]. split; [repeat constructor|].
  assert (Hc : forall z, line_cost simple z = (0 - z pose_a) * (0 - z pose_a) + (2 - z pose_b) * (2 - z pose_b) + (1 - (z pose_b - z pose_a)) * (1 - (z pose_b - z pose_a))).
  { intros z. unfold line_cost, simple. cbn [map]. rewrite !vsum_cons. change (vsum (@nil R)) with 0. cbn [sight_error]. ring. }
  split; [rewrite Hc; field|]. split; [rewrite Hc; unfold simple_best; cbn; field|]. split.
  { intros z. rewrite Hc. set (a := z pose_a). set (b := z pose_b).
    assert (0 <= (a - 1 / 3) * (a - 1 / 3)) by apply Rle_0_sqr. assert (0 <= (b - 5 / 3) * (b - 5 / 3)) by apply Rle_0_sqr.
    assert (0 <= (b - a - 4 / 3) * (b - a - 4 / 3)) by apply Rle_0_sqr. nra. }
  split; [unfold dist2, simple_best; cbn; unfold vsum; cbn; field|].
  destruct (defaults_values (lie_class (fun _ => raw_se2)) (pose_classes _) [pose_a; pose_b]) as (_ & init & Ei & Hwf & Hv); [repeat constructor; cbn; intuition discriminate | discriminate|].
  exists init. split; auto. exists [pose_a; pose_b]. split; auto. split; [intros v; cbn; tauto|].
  intros v Hin. change (get_value (lie_class (fun _ => raw_se2)) init v = Ok (along_x (fun _ => 0) v)). rewrite Hv by auto. reflexivity.
Qed.

(* the assertion the tests make: the joint negative log likelihood goes down *)
Lemma line_nll groups os fs g a b x y ln det : Forall2 sight_factor os fs -> Forall (se2_sight groups) os -> os <> [] -> graph_make (pose_env groups) fs = Ok g ->
  assigns (pose_env groups) fs a (along_x x) -> assigns (pose_env groups) fs b (along_x y) ->
  exists na nb, compute_joint_nll (pose_env groups) ln det g a = Ok na /\ compute_joint_nll (pose_env groups) ln det g b = Ok nb /\ na - nb = line_cost os x - line_cost os y.
Proof.
  intros Hos Hse Hne Eg Ha Hb. pose proof (straight_posed groups os fs Hos Hse Hne) as WP. destruct (bk_parts _ fs g WP Eg) as (CO & Hok & Hws & Hg & Hnef & Hrd).
  destruct (reported groups os fs Hos Hse Hne g a x Eg Ha) as (ra & Ea). destruct (reported groups os fs Hos Hse Hne g b y Eg Hb) as (rb & Eb).
  assert (Hsh : forall c val, assigns (pose_env groups) fs c val -> forall f, In f fs -> residual_shape_ok (pose_env groups) val f).
  { intros c val Hc f Hf. apply (ws_residual _ fs Hws); auto. destruct (update_holds _ CO fs c _ Hc) as (c1 & _ & Hh). apply (holds_legal _ fs CO c1 val Hh). }
  destruct (joint_nll (pose_env groups) ln det fs g Hok Eg) as (J1 & _ & J3).
  assert (Hlin : forall f, In f fs -> linear_noise (f_noise f)).
  { clear -Hos. induction Hos as [|o f os fs Ho Hos0 IH]; intros f' Hf; [destruct Hf|]. destruct Hf as [<-|Hf]; [|apply IH; auto]. destruct o; cbn [sight_factor] in Ho.
    - subst f. exact I.
    - apply between_inv in Ho. destruct Ho as (_ & ->). exact I. }
  destruct (proj1 (J1 a _ Ha (Hsh a _ Ha)) Hlin) as (ca & ra' & ya & _ & _ & Na). destruct (proj1 (J1 b _ Hb (Hsh b _ Hb)) Hlin) as (cb & rb' & yb & _ & _ & Nb).
  exists (ca + vsum ya), (cb + vsum yb). split; auto. split; auto. eapply (J3 a b); eauto.
Qed.

Lemma simple_tests : forall ln det init g, make_from_defaults (lie_class (fun _ => raw_se2)) [pose_a; pose_b] = Ok init -> graph_make (pose_env (fun _ => raw_se2)) simple_fs = Ok g ->
  (forall cfg fuel, (iteration_cap (max_iterations cfg) <= fuel)%nat -> exists a before after,
     gn_solve (pose_env (fun _ => raw_se2)) fuel cfg cholmod_solve g init = Some (Ok a) /\
     compute_joint_nll (pose_env (fun _ => raw_se2)) ln det g init = Ok before /\ compute_joint_nll (pose_env (fun _ => raw_se2)) ln det g a = Ok after /\
     before - after > 4666 / 1000) /\
  (forall cfg fuel, (iteration_cap (max_iterations (lm_term cfg)) <= fuel)%nat -> 0 < lambda_initial cfg -> 1 <= lambda_factor cfg -> 0 < lambda_min cfg -> lm_quality_min cfg <= 1 ->
     exists a before after,
     lm_solve (pose_env (fun _ => raw_se2)) fuel cfg cholmod_solve g init = Some (Ok a) /\
     compute_joint_nll (pose_env (fun _ => raw_se2)) ln det g init = Ok before /\ compute_joint_nll (pose_env (fun _ => raw_se2)) ln det g a = Ok after /\
     before > after).
Proof.
  intros ln det init g Ei Eg. destruct simple_case as (Hos & Hse & Q0 & Qb & Qm & Hd & init' & Ei' & Hi). cbn zeta in *. rewrite Ei in Ei'. injection Ei' as <-.
  assert (Hne : simple <> []) by discriminate. split.
  - intros cfg fuel Hf. destruct (line_gauss_newton _ _ _ _ _ Hos Hse Hne Hi) as (g' & Eg' & H & _). rewrite Eg in Eg'. injection Eg' as <-.
    destruct (H cfg fuel Hf) as (a & k & x' & r & S1 & Hk & Ha & _ & _ & Hb). destruct (line_nll _ _ _ g init a _ x' ln det Hos Hse Hne Eg Hi Ha) as (nb & na & N1 & N2 & N3).
    exists a, nb, na. split; auto. split; auto. split; auto. rewrite Q0 in N3. pose proof (Hb simple_best) as Hx. rewrite Qb, Hd in Hx.
    assert (1 <= INR k) by (replace 1 with (INR 1) by reflexivity; apply le_INR; lia).
    assert (damping * (26 / 9) / INR k <= damping * (26 / 9)).
    { unfold Rdiv at 1. rewrite <- (Rmult_1_r (damping * (26 / 9))) at 2. apply Rmult_le_compat_l; [unfold damping; lra|]. rewrite <- Rinv_1. apply Rinv_le_contravar; lra. }
    unfold damping in *. lra.
  - intros cfg fuel Hf H1 H2 H3 H4. destruct (line_levenberg_marquardt _ _ _ _ _ cfg fuel Hos Hse Hne Hi Hf H1 H2 H3 H4) as (g' & a & k & x' & r & Eg' & S1 & Hk & Ha & _ & Hlt & _).
    rewrite Eg in Eg'. injection Eg' as <-. destruct (line_nll _ _ _ g init a _ x' ln det Hos Hse Hne Eg Hi Ha) as (nb & na & N1 & N2 & N3).
    exists a, nb, na. split; auto. split; auto. split; auto. assert (line_cost simple x' < line_cost simple (fun _ => 0)) by (apply Hlt; exists simple_best; lra). lra.
Qed.
