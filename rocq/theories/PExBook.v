(* Bundled statements and a concrete instance for the textbook iterations. *)
From Coq Require Import List Arith Bool Lia Permutation Reals Lra ZArith.
From Verif Require Import Num NumR Py Arr MLayout MAssign MNoise MSparse MFactor MGraph MLinear MSolver SpecLayout SpecTree SpecAssign SpecGraph SpecSparse SpecNoise SpecDeriv SpecOrder SpecInv SpecSolver SpecTwin SpecLocal SpecBook Ex ExG ExS.
From Verif Require Import PBase PVec PGraph PHold PSolver PSolver2 PSolverR PTotal PExGraph PExInv PExSolver PExDescent PExLinDl PLin POrder POrder2 PTwin PExLocal PBook.
Import ListNotations.
Local Open Scope R_scope.

Lemma turns_snoc {A} (step : A -> A -> Prop) k x y z : turns step k x y -> step y z -> turns step (S k) x z.
Proof. induction 1; intros Hs; econstructor; eauto. constructor. Qed.

Section Bundle.
Variable E : env R.
Variable fs : list (factor R).
Variable g : graph R.
Hypothesis WP : well_posed E fs.
Hypothesis Eg : graph_make E fs = Ok g.

Lemma step_of lin step extra solve s val old : total_solver lin -> nonlinear_solver E lin step extra solve -> carries E fs g s val old -> exists s', step g s = Ok s'.
Proof.
  intros Hlin Hs Hc. destruct (bk_parts E fs g WP Eg) as (CO & Hok & Hws & Hg & Hne & Hrd). destruct (posed_graph E fs WP) as (_ & _ & _ & Hpd).
  destruct (body_total E CO fs g Hok Hg Hne Hrd Hpd Hws lin Hlin step extra solve s Hs (carried_ready E fs g WP Eg s val old Hc)) as (s' & H & _). eauto.
Qed.

Lemma gn_turn step s val : gauss_newton_iteration E g cholmod_solve step -> carries E fs g s val val ->
  exists s' val', step s = Ok s' /\ carries E fs g s' val' val' /\ gauss_newton_turn E fs val val'.
Proof.
  intros [(cfg & ->)|(it & ->)] Hc.
  - destruct (step_of cholmod_solve _ _ _ s val val cholmod_total (solver_gn E cholmod_solve cfg) Hc) as (s' & H). destruct (gn_book E fs g WP Eg cfg s s' val Hc H) as (val' & H1 & H2). eauto.
  - destruct (bk_parts E fs g WP Eg) as (CO & Hok & Hws & Hg & Hne & Hrd).
    destruct (fixed_total E CO fs g Hok Hg Hne Hrd Hws cholmod_solve cholmod_total it s (carried_ready E fs g WP Eg s val val Hc)) as (s' & H & _).
    destruct (fixed_book E fs g WP Eg it s s' val Hc H) as (val' & H1 & H2). eauto.
Qed.
Lemma lm_turns cfg s val old : carries E fs g s val old -> 0 < s_extra s + 1 / 100000 ->
  exists s' b', lm_step E cfg cholmod_solve g s = Ok s' /\ lm_turn E fs cfg (mkBook val old (s_extra s)) b' /\ carries E fs g s' (b_val b') (b_old b') /\ s_extra s' = b_extra b'.
Proof.
  intros Hc Hl. destruct (step_of cholmod_solve _ _ _ s val old cholmod_total (solver_lm E cholmod_solve cfg) Hc) as (s' & H).
  destruct (lm_book E fs g WP Eg cfg s s' val old Hc Hl H) as (b' & H1 & H2 & H3). exists s', b'. auto.
Qed.
Lemma dl_turns cfg s val old : carries E fs g s val old -> 0 < s_extra s ->
  exists s' b', dl_step E cfg cholmod_solve g s = Ok s' /\ dogleg_turn E fs cfg (mkBook val old (s_extra s)) b' /\ carries E fs g s' (b_val b') (b_old b') /\ s_extra s' = b_extra b' /\ 0 < s_extra s'.
Proof.
  intros Hc Hl. destruct (step_of cholmod_solve _ _ _ s val old cholmod_total (solver_dl E cholmod_solve cfg) Hc) as (s' & H).
  destruct (dl_book E fs g WP Eg cfg s s' val old Hc Hl H) as (b' & H1 & H2 & H3 & H4). exists s', b'. auto.
Qed.

(* whole runs *)
Section Runs.
Variable B : Type.
Variable st_of : B -> (var -> pytree R) * (var -> pytree R).
Variable turn : B -> B -> Prop.
Variable rel : sstate R -> B -> Prop.
Hypothesis Hrel : forall s b, rel s b -> carries E fs g s (fst (st_of b)) (snd (st_of b)).
Lemma runs_turns step : (forall s b s', rel s b -> step s = Ok s' -> exists b', turn b b' /\ rel s' b') ->
  forall k s s' b, runs step k s s' -> rel s b -> exists b', turns turn k b b' /\ rel s' b'.
Proof.
  intros Hst k s s' b H. revert b. induction H as [s|k s s1 s' Hd H1 H IH]; intros b Hb; [exists b; split; [constructor | auto]|].
  destruct (Hst s b s1 Hb H1) as (b1 & Ht & Hb1). destruct (IH b1 Hb1) as (b' & Hts & Hb'). exists b'. split; auto. econstructor; eauto.
Qed.
Lemma iterate_turns step : (forall s b s', rel s b -> step s = Ok s' -> exists b', turn b b' /\ rel s' b') ->
  forall k s s' b, iterate k step s = Ok s' -> rel s b -> exists b', turns turn k b b' /\ rel s' b'.
Proof.
  intros Hst. induction k as [|k IH]; intros s s' b H Hb; cbn [iterate] in H; [injection H as <-; exists b; split; [constructor | auto]|].
  apply bind_ok in H. destruct H as (s1 & H1 & H). destruct (Hst s b s1 Hb H1) as (b1 & Ht & Hb1). destruct (IH _ _ _ H Hb1) as (b' & Hts & Hb'). exists b'. split; auto. econstructor; eauto.
Qed.
Lemma outcome_turns lin step extra solve cap init val b0 fuel : total_solver lin -> nonlinear_solver E lin step extra solve ->
  (exists r, solve fuel g init = Some r /\ solve_outcome E step extra 1 cap g init r) ->
  assigns E fs init val -> (forall s, carries E fs g s val val -> s_extra s = extra -> rel s b0) ->
  (forall s b s', rel s b -> step g s = Ok s' -> exists b', turn b b' /\ rel s' b') ->
  exists a' k b', solve fuel g init = Some (Ok a') /\ (1 <= k <= cap)%nat /\ turns turn k b0 b' /\ assigns E fs a' (fst (st_of b')).
Proof.
  intros Hlin Hsol (r & Er & Ho) Hi H0 Hst. destruct (bk_parts E fs g WP Eg) as (CO & Hok & Hws & Hg & Hne & Hrd).
  destruct (never_raises E fs WP) as (g' & Eg' & Hnr). assert (g' = g) by congruence. subst g'. destruct (Hnr lin step extra solve Hlin Hsol init val Hi) as (Hne' & _).
  destruct (update_holds E CO fs init val Hi) as (a & Eu & Ha). unfold solve_outcome in Ho. rewrite (ig_layout _ _ _ Hg), Eu in Ho.
  destruct Ho as [(e & H & _)|(a1 & H & Ho)]; [discriminate|]. injection H as <-. destruct (cost_book E fs g WP Eg a val Ha) as (Ec & _). rewrite Ec in Ho.
  destruct Ho as [(e & H & _)|(c & res & run & H & Hrun & Hr)]; [discriminate|]. injection H as <- <-.
  set (s0 := mkState 0 a _ _ false extra) in *.
  assert (Hc0 : carries E fs g s0 val val) by (apply (holds_carries E fs g WP Eg s0 val (cost_at E fs val)); auto).
  destruct Hrun as [(k & st & Hk & Hruns & _ & ->)|(k & st & e & _ & _ & _ & _ & ->)]; [|exfalso; cbn in Hr; subst r; eapply Hne'; eauto].
  cbn [bind] in Hr. destruct (runs_turns (step g) Hst k s0 st b0 Hruns (H0 s0 Hc0 eq_refl)) as (b' & Ht & Hb').
  pose proof (Hrel _ _ Hb') as (Hv & Hl & _). pose proof (at_holds E fs g WP Eg _ _ Hv Hl) as Hh.
  destruct (update_back E CO fs (s_assign st) _ init val Hh Hi) as (a' & Eb & Ha'). exists a', k, b'. split; [congruence|]. auto.
Qed.
End Runs.

Lemma gn_solves cfg fuel init val : assigns E fs init val -> (iteration_cap (max_iterations cfg) <= fuel)%nat ->
  exists a' k val', gn_solve E fuel cfg cholmod_solve g init = Some (Ok a') /\ (1 <= k <= iteration_cap (max_iterations cfg))%nat /\
    turns (gauss_newton_turn E fs) k val val' /\ assigns E fs a' val'.
Proof.
  intros Hi Hf. destruct (solvers_terminate E g init cholmod_solve fuel) as (Hgn & _).
  apply (outcome_turns _ (fun v => (v, v)) (gauss_newton_turn E fs) (fun s v => carries E fs g s v v)) with (lin := cholmod_solve) (step := gn_step E cfg cholmod_solve) (extra := n0) (val := val) (solve := fun fuel => gn_solve E fuel cfg cholmod_solve); auto.
  - apply cholmod_total.
  - constructor.
  - intros s v s' Hc H. destruct (gn_book E fs g WP Eg cfg s s' v Hc H) as (v' & H1 & H2). eauto.
Qed.
Lemma lm_solves cfg fuel init val : assigns E fs init val -> (iteration_cap (max_iterations (lm_term cfg)) <= fuel)%nat ->
  0 < lambda_initial cfg -> 0 < lambda_factor cfg -> 0 < lambda_min cfg ->
  exists a' k b', lm_solve E fuel cfg cholmod_solve g init = Some (Ok a') /\ (1 <= k <= iteration_cap (max_iterations (lm_term cfg)))%nat /\
    turns (lm_turn E fs cfg) k (mkBook val val (lambda_initial cfg)) b' /\ assigns E fs a' (b_val b').
Proof.
  intros Hi Hf H0 H1 H2. destruct (solvers_terminate E g init cholmod_solve fuel) as (_ & Hlm & _).
  apply (outcome_turns _ (fun b => (b_val b, b_old b)) (lm_turn E fs cfg) (fun s b => carries E fs g s (b_val b) (b_old b) /\ s_extra s = b_extra b /\ 0 < s_extra s))
    with (lin := cholmod_solve) (step := lm_step E cfg cholmod_solve) (extra := lambda_initial cfg) (val := val) (solve := fun fuel => lm_solve E fuel cfg cholmod_solve); auto.
  - intros s b (H & _). exact H.
  - apply cholmod_total.
  - constructor.
  - intros s Hc He. cbn. rewrite He. auto.
  - intros s b s' (Hc & He & Hp) H. destruct (lm_book E fs g WP Eg cfg s s' _ _ Hc ltac:(lra) H) as (b' & G1 & G2 & G3). exists b'. destruct b as [bv bo be]. cbn in *. subst be. split; auto. split; auto. split; auto.
    destruct G1 as (xi & p & _ & _ & [(_ & ->)|(_ & ->)]); cbn in G3; rewrite G3.
    + apply Rmult_lt_0_compat; auto. apply Rinv_0_lt_compat; auto.
    + eapply Rlt_le_trans; [exact H2 | apply Rmax_l].
Qed.
Lemma dl_solves cfg fuel init val : assigns E fs init val -> (iteration_cap (max_iterations (dl_term cfg)) <= fuel)%nat -> 0 < radius_initial cfg ->
  exists a' k b', dl_solve E fuel cfg cholmod_solve g init = Some (Ok a') /\ (1 <= k <= iteration_cap (max_iterations (dl_term cfg)))%nat /\
    turns (dogleg_turn E fs cfg) k (mkBook val val (radius_initial cfg)) b' /\ assigns E fs a' (b_val b').
Proof.
  intros Hi Hf H0. destruct (solvers_terminate E g init cholmod_solve fuel) as (_ & _ & Hdl).
  apply (outcome_turns _ (fun b => (b_val b, b_old b)) (dogleg_turn E fs cfg) (fun s b => carries E fs g s (b_val b) (b_old b) /\ s_extra s = b_extra b /\ 0 < s_extra s))
    with (lin := cholmod_solve) (step := dl_step E cfg cholmod_solve) (extra := radius_initial cfg) (val := val) (solve := fun fuel => dl_solve E fuel cfg cholmod_solve); auto.
  - intros s b (H & _). exact H.
  - apply cholmod_total.
  - constructor.
  - intros s Hc He. cbn. rewrite He. auto.
  - intros s b s' (Hc & He & Hp) H. destruct (dl_book E fs g WP Eg cfg s s' _ _ Hc Hp H) as (b' & G1 & G2 & G3 & G4). exists b'. destruct b as [bv bo be]. cbn in *. subst be. auto.
Qed.
Lemma fixed_solves fuel unroll it init val : assigns E fs init val -> same_layout (as_layout init) (g_layout g) -> (1 <= it)%Z -> (Z.to_nat it <= fuel)%nat ->
  exists a' val', fixed_solve E fuel unroll it cholmod_solve g init = Some (Ok a') /\ turns (gauss_newton_turn E fs) (Z.to_nat it) val val' /\ assigns E fs a' val'.
Proof.
  intros Hi Hs Hit Hfu. destruct (bk_parts E fs g WP Eg) as (CO & Hok & Hws & Hg & Hne & Hrd). pose proof (at_holds E fs g WP Eg init val Hi Hs) as Ha.
  destruct (cost_book E fs g WP Eg init val Ha) as (Ec & _). set (r0 := rvec _ _) in Ec. set (s0 := mkState 0 init (cost_at E fs val) r0 false 0).
  assert (Hc0 : carries E fs g s0 val val) by (apply (holds_carries E fs g WP Eg s0 val (cost_at E fs val)); auto).
  destruct (iterate_total E fs (fixed_step E it cholmod_solve g) (fun s => fixed_total E CO fs g Hok Hg Hne Hrd Hws cholmod_solve cholmod_total it s) (Z.to_nat it) s0 (carried_ready E fs g WP Eg s0 val val Hc0)) as (st & Est & _).
  destruct (iterate_turns _ (gauss_newton_turn E fs) (fun s v => carries E fs g s v v) (fixed_step E it cholmod_solve g)) with (k := Z.to_nat it) (s := s0) (s' := st) (b := val) as (val' & Ht & Hc'); auto.
  { intros s v s' Hc H. destruct (fixed_book E fs g WP Eg it s s' v Hc H) as (v' & H1 & H2). eauto. }
  exists (s_assign st), val'. split; [|split; [auto | apply Hc']].
  unfold fixed_solve, init_state. rewrite Ec. cbn [bind fst snd]. change n0 with 0. fold s0. rewrite Est.
  destruct unroll; [reflexivity|]. destruct (Z.to_nat it) as [|k] eqn:Ek; [lia|].
  rewrite (fixed_loop E cholmod_solve g it k fuel s0); auto; [rewrite Est; auto|]. cbn. lia.
Qed.
End Bundle.

Lemma book_gauss_newton : forall (E : env R) fs g s val step, well_posed E fs -> graph_make E fs = Ok g -> carries E fs g s val val ->
  gauss_newton_iteration E g cholmod_solve step ->
  exists s' val', step s = Ok s' /\ carries E fs g s' val' val' /\ gauss_newton_turn E fs val val'.
Proof. intros. apply gn_turn; auto. Qed.
Lemma book_trust_region : forall (E : env R) fs g s val old, well_posed E fs -> graph_make E fs = Ok g -> carries E fs g s val old ->
  (forall cfg, 0 <= s_extra s ->
     exists s' b', lm_step E cfg cholmod_solve g s = Ok s' /\ lm_turn E fs cfg (mkBook val old (s_extra s)) b' /\
       carries E fs g s' (b_val b') (b_old b') /\ s_extra s' = b_extra b') /\
  (forall cfg, 0 < s_extra s ->
     exists s' b', dl_step E cfg cholmod_solve g s = Ok s' /\ dogleg_turn E fs cfg (mkBook val old (s_extra s)) b' /\
       carries E fs g s' (b_val b') (b_old b') /\ s_extra s' = b_extra b').
Proof.
  intros E fs g s val old WP Eg Hc. split.
  - intros cfg Hl. apply lm_turns; auto. lra.
  - intros cfg Hl. destruct (dl_turns E fs g WP Eg cfg s val old Hc Hl) as (s' & b' & H1 & H2 & H3 & H4 & _). exists s', b'. auto.
Qed.
Lemma book_solves : forall (E : env R) fs g init val fuel, well_posed E fs -> graph_make E fs = Ok g -> assigns E fs init val ->
  (forall cfg, (iteration_cap (max_iterations cfg) <= fuel)%nat ->
     exists a' k val', gn_solve E fuel cfg cholmod_solve g init = Some (Ok a') /\ (1 <= k <= iteration_cap (max_iterations cfg))%nat /\
       turns (gauss_newton_turn E fs) k val val' /\ assigns E fs a' val') /\
  (forall unroll it, same_layout (as_layout init) (g_layout g) -> (1 <= it)%Z -> (Z.to_nat it <= fuel)%nat ->
     exists a' val', fixed_solve E fuel unroll it cholmod_solve g init = Some (Ok a') /\ turns (gauss_newton_turn E fs) (Z.to_nat it) val val' /\ assigns E fs a' val') /\
  (forall cfg, (iteration_cap (max_iterations (lm_term cfg)) <= fuel)%nat -> 0 < lambda_initial cfg -> 0 < lambda_factor cfg -> 0 < lambda_min cfg ->
     exists a' k b', lm_solve E fuel cfg cholmod_solve g init = Some (Ok a') /\ (1 <= k <= iteration_cap (max_iterations (lm_term cfg)))%nat /\
       turns (lm_turn E fs cfg) k (mkBook val val (lambda_initial cfg)) b' /\ assigns E fs a' (b_val b')) /\
  (forall cfg, (iteration_cap (max_iterations (dl_term cfg)) <= fuel)%nat -> 0 < radius_initial cfg ->
     exists a' k b', dl_solve E fuel cfg cholmod_solve g init = Some (Ok a') /\ (1 <= k <= iteration_cap (max_iterations (dl_term cfg)))%nat /\
       turns (dogleg_turn E fs cfg) k (mkBook val val (radius_initial cfg)) b' /\ assigns E fs a' (b_val b')).
Proof.
  intros E fs g init val fuel WP Eg Hi. split; [|split; [|split]]; intros.
  - apply gn_solves; auto.
  - apply fixed_solves; auto.
  - apply lm_solves; auto.
  - apply dl_solves; auto.
Qed.

Lemma damped_unique (E : env R) fs beta val old xi eta : damped_step E fs beta val old xi -> damped_step E fs beta val old eta -> agree fs eta xi.
Proof. intros (H1 & H2) (H3 & H4). apply (H2 eta H3). apply (H4 xi H1). Qed.
Lemma moved_same (E : env R) fs val xi eta p q : agree fs eta xi -> moved E fs val xi p -> moved E fs val eta q -> forall v, In v (mentioned fs) -> p v = q v.
Proof. intros Ha Hp Hq v Hv. pose proof (Hp v Hv) as H1. pose proof (Hq v Hv) as H2. rewrite Ha in H2 by auto. congruence. Qed.
Lemma cost_at_ext (E : env R) fs p q : (forall v, In v (mentioned fs) -> p v = q v) -> cost_at E fs p = cost_at E fs q.
Proof.
  intros H. unfold cost_at. apply vsum_map_ext. intros f Hf.
  assert (whitened_at E p f = whitened_at E q f) as ->; auto. unfold whitened_at, residual_at. do 2 f_equal. apply map_ext_in. intros v Hv. apply H, mentioned_in. eauto.
Qed.
Lemma book_deterministic : forall (E : env R) fs,
  (forall val v1 v2, gauss_newton_turn E fs val v1 -> gauss_newton_turn E fs val v2 -> forall v, In v (mentioned fs) -> v1 v = v2 v) /\
  (forall cfg b b1 b2, lm_turn E fs cfg b b1 -> lm_turn E fs cfg b b2 ->
     b_extra b1 = b_extra b2 /\ forall v, In v (mentioned fs) -> b_val b1 v = b_val b2 v /\ b_old b1 v = b_old b2 v).
Proof.
  intros E fs. split.
  - intros val v1 v2 (xi & D1 & M1) (eta & D2 & M2). apply (moved_same E fs val xi eta); auto. eapply damped_unique; eauto.
  - intros cfg b b1 b2 (xi & p & D1 & M1 & H1) (eta & q & D2 & M2 & H2). pose proof (damped_unique _ _ _ _ _ _ _ D1 D2) as Ha. pose proof (moved_same _ _ _ _ _ _ _ Ha M1 M2) as Hpq.
    assert (Hq : quality E fs (b_val b) (b_old b) eta q = quality E fs (b_val b) (b_old b) xi p).
    { unfold quality. rewrite (cost_at_ext E fs p q Hpq), (model_ext E fs (b_val b) (b_old b) eta xi Ha). auto. }
    unfold decided in H1, H2. rewrite Hq in H2. destruct H1 as [(Q1 & ->)|(Q1 & ->)], H2 as [(Q2 & ->)|(Q2 & ->)]; cbn; try lra; split; auto.
Qed.

(* (x^2 - 3, x - 6) from x = 1: the model is (2 d - 2)^2 + (d - 5)^2 *)
Lemma bowl_turn : exists g s, well_posed exSE bowl /\ graph_make exSE bowl = Ok g /\ carries exSE bowl g s (const_of 1) (const_of 1) /\
  assigns exSE bowl (scalars [vx] [1]) (const_of 1) /\
  (forall d, model exSE bowl (const_of 1) (const_of 1) (fun _ => [d]) = (2 * d - 2) * (2 * d - 2) + (d - 5) * (d - 5)) /\
  gauss_newton_turn exSE bowl (const_of 1) (const_of (1 + 9 / (5 + 1 / 100000))).
Proof.
  destruct bowl_posed as (WP & Eg & _). destruct (bowl_assigns 1) as (Ha & Hl).
  assert (Hm : forall d, model exSE bowl (const_of 1) (const_of 1) (fun _ => [d]) = (2 * d - 2) * (2 * d - 2) + (d - 5) * (d - 5)).
  { intros d. comp. unfold Rlit. field. }
  exists gbowl. destruct (cost_book exSE bowl gbowl WP Eg _ _ (at_holds exSE bowl gbowl WP Eg _ _ Ha Hl)) as (Ec & _).
  exists (mkState 0 (scalars [vx] [1]) (cost_at exSE bowl (const_of 1)) (rvec bowl (wv exSE (const_of 1))) false 1). split; auto. split; auto. split; [refine (holds_carries exSE bowl gbowl WP Eg (mkState 0 (scalars [vx] [1]) (cost_at exSE bowl (const_of 1)) (rvec bowl (wv exSE (const_of 1))) false 1) _ _ (at_holds exSE bowl gbowl WP Eg _ _ Ha Hl) Ec eq_refl)|].
  split; auto. split; auto. set (z := 9 / (5 + 1 / 100000)). exists (fun _ => [z]). split; [split|].
  - intros v [<-|[]]. reflexivity.
  - intros eta Ht. assert (exists d, eta vx = [d]) as (d & Hd).
    { pose proof (Ht vx (or_introl eq_refl)) as Hl1. change (length (eta vx) = 1%nat) in Hl1. destruct (eta vx) as [|d [|]]; try discriminate. eauto. }
    rewrite (model_ext exSE bowl _ _ eta (fun _ => [d])) by (intros v [<-|[]]; auto). rewrite !Hm.
    assert (Hi : forall x y, inner bowl (fun _ => [x]) (fun _ => [y]) = x * y) by (intros; comp; ring).
    rewrite (inner_ext bowl eta (fun _ => [d]) eta (fun _ => [d])) by (intros v [<-|[]]; auto). rewrite !Hi.
    assert (Hz : z * (5 + 1 / 100000) = 9) by (unfold z; field).
    assert (Hsq : (2 * d - 2) * (2 * d - 2) + (d - 5) * (d - 5) + 1 / 100000 * (d * d) - ((2 * z - 2) * (2 * z - 2) + (z - 5) * (z - 5) + 1 / 100000 * (z * z)) = (5 + 1 / 100000) * ((d - z) * (d - z))).
    { replace (d * d) with ((d - z) * (d - z) + 2 * z * d - z * z) by ring. nra. }
    assert (P : 0 <= (d - z) * (d - z)) by apply Rle_0_sqr. split; [lra|]. intros Hle.
    assert (Hsq0 : Rsqr (d - z) = 0) by (unfold Rsqr; lra). apply Rsqr_0_uniq in Hsq0. intros v [<-|[]]. rewrite Hd. f_equal. lra.
  - intros v [<-|[]]. reflexivity.
Qed.
