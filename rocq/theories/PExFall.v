(* Bundling lemmas and concrete instances for C110. *)
From Coq Require Import List Arith Bool ZArith Lia Permutation Reals Lra Psatz.
From Verif Require Import Num NumR Py Arr MLayout MAssign MNoise MSparse MFactor MGraph MLinear MSolver SpecLayout SpecTree SpecAssign SpecGraph SpecSparse SpecSolver SpecOrder SpecInv SpecDescent SpecCgLin SpecLocal SpecFall.
From Verif Require Import PInv PExInv PTotal PLin PExLin PExSym PExLinDl PExLinTr PLocal PExLocal.
From Verif Require Import PBase PLayout PTree PAssign PAssign2 PGraph PGraph2 PGraph4 PVec PSparse PSolver PSolver2 PSolverR PHold PInv POrder3 PDescent PExGraph Ex ExG ExS PExSolver PExOrder PExPart PExDescent PRecover PExRecover PFall.
Import ListNotations.
Local Open Scope R_scope.

Lemma gn_falls : forall (E : env R) fs g, classes_ok (e_cls E) -> (forall f, In f fs -> factor_ok f) -> graph_make E fs = Ok g ->
  well_shaped E fs -> total residual_dim fs <> 0%nat ->
  forall s val, assigns E fs (s_assign s) val -> same_layout (as_layout (s_assign s)) (g_layout g) -> current E g s ->
  forall m F K t step l s', 0 <= m -> 0 <= F -> 0 <= K -> 0 <= t -> 2 * t + t * t < 1 -> K * sqrt (s_cost s) <= t * (m + 2 * Rlit 1 100000) ->
  full_body E step -> walk E g step l s s' -> (forall v, In v l -> tame E g m F K v) ->
  (1 - 2 * t - t * t) * vsum (map (fun v => sumsq (snd v) / (F + Rlit 1 100000)) l) <= s_cost s - s_cost s' /\ 0 <= s_cost s' /\
  (l <> [] -> exists v, In v l /\ sumsq (snd v) * ((1 - 2 * t - t * t) * INR (length l)) <= s_cost s * (F + Rlit 1 100000)).
Proof.
  intros E fs g H1 H2 H3 H4 H5 s val H6 H7 H8 m F K t step l s' Hm HF HK Ht Hth Hsm Hb Hw HT.
  assert (Hr : ready E fs g s) by (eapply starts_ready; eauto).
  assert (Hth' : 0 <= 1 - 2 * t - t * t) by lra.
  destruct (falls E fs g H1 H2 H3 H4 H5 m F K t Hm HF HK Ht Hth' step l s s' Hb Hw Hr HT Hsm) as (G1 & G2). split; auto. split; auto.
  intros Hne. assert (Hth2 : 0 < 1 - 2 * t - t * t) by lra. assert (G3 : (1 - 2 * t - t * t) * vsum (map (fun v : sstate R * coo R * list R => sumsq (snd v) / (F + Rlit 1 100000)) l) <= s_cost s) by lra.
  destruct (below_mean fs H5 _ l _ (s_cost s) Hne Hth2 G3) as (v & Hv & Hle). exists v. split; auto. cbv beta in Hle.
  assert (Hp : 0 < F + Rlit 1 100000) by (unfold Rlit; lra). apply (Rmult_le_compat_r (F + Rlit 1 100000)) in Hle; [|lra].
  replace (sumsq (snd v) / (F + Rlit 1 100000) * ((1 - 2 * t - t * t) * INR (length l)) * (F + Rlit 1 100000)) with (sumsq (snd v) * ((1 - 2 * t - t * t) * INR (length l))) in Hle by (field; lra).
  exact Hle.
Qed.

(* ---- the residual x^2 - 2, from x = 3/2 ---- *)
Lemma ex_falls : let s := parab_at (3/2) 0 in exists s' A ng,
  (forall f, In f parab -> factor_ok f) /\ graph_make exSE parab = Ok gparab /\ well_shaped exSE parab /\ total residual_dim parab <> 0%nat /\
  assigns exSE parab (s_assign s) (const_of (3/2)) /\ same_layout (as_layout (s_assign s)) (g_layout gparab) /\ current exSE gparab s /\
  2 * (1/36) + 1/36 * (1/36) < 1 /\ 1 * sqrt (s_cost s) <= 1/36 * (9 + 2 * Rlit 1 100000) /\ ng <> vzero (length ng) /\
  walk exSE gparab (gn_step exSE (term_default 100) cholmod_solve) [(s, A, ng)] s s' /\ (forall v, In v [(s, A, ng)] -> tame exSE gparab 9 9 1 v).
Proof.
  intros s. destruct parab_ok as (P1 & P2 & P3 & P4). destruct (parab_start (3/2) 0) as (Q1 & Q2 & Q3 & Q4).
  assert (Hx : exists s', gn_step exSE (term_default 100) cholmod_solve gparab s = Ok s') by (eexists; comp; reflexivity). destruct Hx as (s' & Hs').
  exists s', (jac_at (3/2)), [2 * (3/2) * (2 - 3/2 * (3/2))]. split; [exact P1|]. split; [exact P3|]. split; [exact P2|]. split; [rewrite P4; discriminate|]. do 3 (split; [assumption|]).
  split; [lra|]. split; [unfold s; rewrite parab_cost, sqrt_Rsqr by lra; unfold Rlit; lra|]. split; [cbn; intros H; injection H; lra|]. split.
  - econstructor; [exact Hs' | apply parab_jac | apply parab_grad | constructor].
  - intros v [<-|[]]. split; [|split; [apply parab_norm; lra | apply parab_curv]].
    intros y Ay Hy H. destruct y as [|a [|b y]]; try discriminate Hy. assert (Ay = [0 + 2 * (3/2) * a]) by (clear - H; revert H; comp; intros H; injection H as <-; reflexivity). subst Ay.
    assert (E1 : sumsq [a] = a * a) by (comp; ring). assert (E2 : sumsq [0 + 2 * (3/2) * a] = 9 * (a * a)) by (comp; field). rewrite E1, E2. lra.
Qed.

(* ---- 1 + x + M x^2, from x = 0 ---- *)
Lemma cliff_tame M ng : 2 <= M -> tame cliffE (gcliff M) 1 1 M (mkState 0%nat (scalars [vx] [0]) 1 [1] false 0, unit_coo, ng).
Proof.
  intros HM. split; [|split; [exact line_norm|]].
  - intros y Ay Hy H. destruct y as [|a [|b y]]; try discriminate Hy. assert (Ay = [0 + 1 * a]) by (clear - H; revert H; comp; intros H; injection H as <-; reflexivity). subst Ay.
    assert (E1 : sumsq [a] = a * a) by (comp; ring). assert (E2 : sumsq [0 + 1 * a] = a * a) by (comp; ring). rewrite E1, E2. lra.
  - intros d Ad prop c r' H1 H2 H3. cbn [s_assign s_res] in *. destruct d as [|a [|b v]]; [discriminate H1 | | discriminate H1]. rewrite cliff_retract in H2. injection H2 as <-.
    rewrite cliff_cost in H3. injection H3 as _ <-.
    assert (HAd : Ad = [0 + 1 * a]) by (clear - H1; revert H1; comp; intros H1; injection H1 as <-; reflexivity). subst Ad.
    assert (E1 : sumsq [a] = a * a) by (comp; ring). rewrite E1. rewrite Rplus_0_l.
    assert (E2 : sumsq (vsub [hr M a] (vadd [0 + 1 * a] [1])) = (hr M a - (a + 1)) * (hr M a - (a + 1))) by (compc; ring). rewrite E2.
    assert (P : 0 <= M * (a * a)) by (apply Rmult_le_pos; [lra | apply Rle_0_sqr]).
    change ((hr M a - (a + 1)) * (hr M a - (a + 1))) with (Rsqr (hr M a - (a + 1))). rewrite sqrt_Rsqr_abs. destruct (Rle_lt_dec (-1) a) as [Ha|Ha].
    + rewrite hr_in by auto. rewrite Rabs_pos_eq; lra.
    + rewrite hr_out by auto. rewrite Rabs_pos_eq by lra. assert (M * 1 <= M * (a * a + a + 1)) by (apply Rmult_le_compat_l; nra). nra.
Qed.

Lemma gn_raises : forall M, 2 <= M -> exists (E : env R) fs g init val r A ng,
  classes_ok (e_cls E) /\ (forall f, In f fs -> factor_ok f) /\ well_shaped E fs /\ graph_make E fs = Ok g /\ assigns E fs init val /\
  compute_cost E g init = Ok (1, r) /\ tame E g 1 1 M (mkState 0%nat init 1 r false 0, A, ng) /\ compute_whitened_residual_jacobian E g init r = Ok A /\
  exists a' c' r', compute_cost E g a' = Ok (c', r') /\ (9/10 * M) * (9/10 * M) <= c' /\
    (forall fuel, gn_solve E (S fuel) (term_default 1) cholmod_solve g init = Some (Ok a')) /\
    (forall fuel unroll, fixed_solve E (S fuel) unroll 1 cholmod_solve g init = Some (Ok a')).
Proof.
  intros M HM. destruct (cliff_ok M) as (P1 & P2 & P3 & P4). exists cliffE, (cliff M), (gcliff M), (scalars [vx] [0]), (const_of 0), [1], unit_coo, [-1].
  split; [exact exS_classes|]. do 4 (split; [assumption|]). split; [rewrite cliff_cost, hr_in by lra; do 2 f_equal; [|f_equal]; ring|]. split; [apply cliff_tame; auto|].
  split; [rewrite cliff_jac, hj_0; reflexivity|].
  set (d := - (1 * 1) / (1 * 1 + (0 + Rlit 1 100000))).
  assert (Hd : -1 < d < -9999/10000) by (unfold d, Rlit; lra).
  exists (scalars [vx] [0 + d]), (hr M (0 + d) * hr M (0 + d)), [hr M (0 + d)]. split; [apply cliff_cost|].
  assert (Eu : forall c l i b, gn_update cliffE cholmod_solve (gcliff M) (mkState i (scalars [vx] [0]) c [1] b l) = Ok ([-1], mkAssign [d] (g_local_layout (gcliff M)), scalars [vx] [0 + d])).
  { intros. unfold gn_update. cbn [s_assign s_res s_iter]. rewrite cliff_jac, hj_0. cbn [bind].
    assert (E1 : matmul (transpose (mkCoo [1] (mkCoords [0%nat] [0%nat]) (1%nat, 1%nat))) [1] = Ok [1]) by (comp; do 2 f_equal; ring). rewrite E1. cbn [bind].
    assert (E2 : vneg [1] = [- (hj M 0 * 1)]) by (rewrite hj_0; cbn; f_equal; rn; ring). rewrite E2.
    pose proof (cliff_solve M 0 1 0 i ltac:(unfold Rlit; lra)) as E3. rewrite hj_0 in E3. rewrite hj_0. change (@n0 R NumR) with 0. rewrite E3. cbn [bind]. fold d. rewrite cliff_retract. cbn [bind]. do 3 f_equal. f_equal. ring. }
  assert (Ei : init_state cliffE (gcliff M) (scalars [vx] [0]) n0 = Ok (mkState 0%nat (scalars [vx] [0]) 1 [1] false n0)).
  { unfold init_state. rewrite cliff_cost, hr_in by lra. cbn [bind fst snd]. f_equal. f_equal; [|f_equal]; ring. }
  split; [|split].
  - rewrite Rplus_0_l, hr_in by lra. assert (Hdd : 9/10 <= d * d) by nra. assert (9/10 * M <= M * (d * d)) by nra.
    apply Rmult_le_compat; lra.
  - intros fuel. unfold gn_solve, solve_with.
    assert (Es : update_storage_layout (e_cls cliffE) (scalars [vx] [0]) (g_layout (gcliff M)) = Ok (scalars [vx] [0])) by (compc; reflexivity). rewrite Es, Ei.
    cbn [while_loop s_done negb]. unfold gn_step at 1. rewrite Eu. cbn [bind]. rewrite cliff_cost. cbn [bind fst snd].
    assert (Hcv : exists conv, check_convergence cliffE (term_default 1) (mkState 0%nat (scalars [vx] [0]) 1 [1] false n0) (hr M (0 + d) * hr M (0 + d)) (mkAssign [d] (g_local_layout (gcliff M))) [-1] = Ok conv) by (eexists; compc; reflexivity).
    destruct Hcv as (conv & ->). cbn [bind]. change (exceeded_max_iterations (term_default 1) _) with true. cbn [orb]. destruct fuel; cbn [while_loop s_done negb s_assign]; compc; reflexivity.
  - intros fuel unroll. unfold fixed_solve. rewrite Ei.
    assert (Ef : fixed_step cliffE 1 cholmod_solve (gcliff M) (mkState 0%nat (scalars [vx] [0]) 1 [1] false n0) = Ok (mkState 1%nat (scalars [vx] [0 + d]) (hr M (0 + d) * hr M (0 + d)) [hr M (0 + d)] true n0)).
    { unfold fixed_step. rewrite Eu. cbn [bind]. rewrite cliff_cost. reflexivity. }
    destruct unroll.
    + change (Z.to_nat 1) with 1%nat. cbn [iterate]. rewrite Ef. reflexivity.
    + cbn [while_loop s_done negb]. rewrite Ef. destruct fuel; reflexivity.
Qed.

(* ---- whole solves ---- *)
Lemma tame_runs E fs g m F K t c0 step : well_posed E fs -> graph_make E fs = Ok g -> 0 <= m -> 0 <= F -> 0 <= K -> 0 <= t -> 2 * t + t * t < 1 ->
  K * sqrt c0 <= t * (m + 2 * Rlit 1 100000) -> tame_below E fs g m F K c0 -> full_body E step ->
  forall k s s', iterate k (step g) s = Ok s' -> fresh E fs g s -> s_cost s <= c0 -> fresh E fs g s' /\ s_cost s' <= s_cost s.
Proof.
  intros WP Eg Hm HF HK Ht Hth Hc0 HT Hb. destruct (posed_graph E fs WP) as (Hne & _ & Hrd & Hpd). pose proof WP as [CO Hok Hws _ _]. destruct (made E fs g Hok Eg) as (Hg & _).
  assert (Hth' : 0 <= 1 - 2 * t - t * t) by lra.
  induction k as [|k IH]; intros s s' H Hs Hc; cbn in H.
  - injection H as <-. split; [auto | lra].
  - apply bind_ok in H. destruct H as (s1 & H1 & H2).
    pose proof Hs as (Hcur & val & Hh).
    assert (Hr : ready E fs g s) by (split; [exists val; auto | auto]).
    destruct (full_inv E fs g CO Hok Eg Hws step s s1 Hb H1) as (A & ATr & d & EA & Eb & _).
    destruct (ready_at E fs g CO Hok Eg Hws Hrd s A Hr EA) as (HA & Hlr & _ & _ & Hlr').
    assert (Hng : matmul (transpose A) (vneg (s_res s)) = Ok (mapply (transpose A) (vneg (s_res s)))) by (apply matmul_mapply; [apply transpose_ok; auto | auto]).
    assert (Hlay : same_layout (as_layout (s_assign s)) (g_layout g)) by (rewrite (ig_layout _ _ _ Hg); destruct Hh as (vs & _ & Hsl & _); exact Hsl).
    assert (Htm : tame E g m F K (s, A, mapply (transpose A) (vneg (s_res s)))) by (apply (HT s val A _); auto; apply holds_assigns; auto).
    assert (Hsm : K * sqrt (s_cost s) <= t * (m + 2 * Rlit 1 100000)) by (eapply Rle_trans; [|exact Hc0]; apply Rmult_le_compat_l; auto; apply sqrt_le_1_alt; auto).
    destruct (fall_one E fs g CO Hok Eg Hws Hrd m F K t Hm HF HK Ht Hth' step s s1 A _ Hb Hr H1 EA Hng Htm Hsm) as (Hr1 & Hc1).
    assert (P : 0 <= (1 - 2 * t - t * t) * (sumsq (mapply (transpose A) (vneg (s_res s))) / (F + Rlit 1 100000))).
    { apply Rmult_le_pos; auto. unfold Rdiv. apply Rmult_le_pos; [apply sumsq_nonneg | apply Rlt_le, Rinv_0_lt_compat; unfold Rlit; lra]. }
    assert (Hs1 : fresh E fs g s1) by (destruct Hr1 as ((v1 & Hv1 & _) & Hcc); split; [auto | exists v1; auto]).
    destruct (IH s1 s' H2 Hs1) as (G1 & G2); [lra|]. split; [auto | lra].
Qed.

Lemma gn_solves : forall (E : env R) fs g, well_posed E fs -> graph_make E fs = Ok g ->
  forall init val c0 r0 m F K t, assigns E fs init val -> compute_cost E g init = Ok (c0, r0) ->
  0 <= m -> 0 <= F -> 0 <= K -> 0 <= t -> 2 * t + t * t < 1 -> K * sqrt c0 <= t * (m + 2 * Rlit 1 100000) -> tame_below E fs g m F K c0 ->
  (forall cfg fuel, (iteration_cap (max_iterations cfg) <= fuel)%nat ->
     exists a' val' c r, gn_solve E fuel cfg cholmod_solve g init = Some (Ok a') /\ assigns E fs a' val' /\ compute_cost E g a' = Ok (c, r) /\ c <= c0) /\
  (forall fuel unroll it, same_layout (as_layout init) (g_layout g) -> (1 <= it)%Z -> (Z.to_nat it <= fuel)%nat ->
     exists a' val' c r, fixed_solve E fuel unroll it cholmod_solve g init = Some (Ok a') /\ assigns E fs a' val' /\ compute_cost E g a' = Ok (c, r) /\ c <= c0).
Proof.
  intros E fs g WP Eg init val c0 r0 m F K t Hi Ec Hm HF HK Ht Hth Hc0 HT. split.
  - intros cfg fuel Hfu. destruct (solve_costs E fs g WP Eg cholmod_solve cholmod_total init val c0 r0 Hi Ec (fun _ c => c <= c0) _ _ _ (iteration_cap (max_iterations cfg)) fuel (solver_gn E cholmod_solve cfg)) as (a' & v' & c & r & k & G1 & G2 & G3 & _ & G5).
    + destruct (solvers_terminate E g init cholmod_solve fuel) as (Hx & _). auto.
    + intros a k st Ha Ea Hr. apply runs_iterate in Hr. destruct (tame_runs E fs g m F K t c0 _ WP Eg Hm HF HK Ht Hth Hc0 HT (full_gn E cfg) k _ st Hr) as (G1 & G2); [split; [exact Ea | exists val; exact Ha] | cbn; lra|]. split; [auto | exact G2].
    + exists a', v', c, r. auto.
  - intros fuel unroll it Hs Hit Hfu. apply (fixed_costs E fs g WP Eg cholmod_solve cholmod_total init val c0 r0 Hi Ec (fun _ c => c <= c0) fuel unroll it Hs Hit Hfu).
    intros st Est. destruct (tame_runs E fs g m F K t c0 _ WP Eg Hm HF HK Ht Hth Hc0 HT (full_fixed E it) _ _ st Est) as (G1 & G2); [split; [exact Ec | exists val; apply (lin_holds E fs g WP Eg init val Hi Hs)] | cbn; lra|]. split; [auto | exact G2].
Qed.

Lemma parab_posed : well_posed exSE parab /\ plain_problem exSE parab.
Proof.
  assert (Hf : forall f, In f parab -> exists v z, In v [vx; vy] /\ (f = square v z \/ f = anchor v z)) by (intros f [<-|[]]; exists vx, 2%Z; simpl; auto).
  split; [|intros v [<-|[]]; split; reflexivity]. split.
  - exact exS_classes.
  - apply ok_two; auto.
  - apply shaped_two; auto.
  - exists (square vx 2). split; [left; auto | discriminate].
  - exists vx. split; [left; auto | discriminate].
Qed.
Lemma parab_only b val : assigns exSE parab b val -> same_layout (as_layout b) (g_layout gparab) -> exists x, b = scalars [vx] [x].
Proof.
  intros Ha Hs. destruct parab_posed as (WP & HP). pose proof (lin_holds exSE parab _ WP eq_refl b val Ha Hs) as Hh.
  pose proof (pl_held_length exSE parab HP exS_classes b val Hh) as Hl. destruct Hh as (vs & Hwf & Hsl & _). pose proof (holds_vars exSE parab vs b Hwf Hsl) as Hv.
  destruct Hwf as (ND & HL & _). change (length (as_storage b) = 1%nat) in Hl. destruct b as [st lay]. cbn [as_storage as_layout] in *.
  destruct st as [|x [|y st]]; try discriminate. exists x. unfold scalars. f_equal. rewrite HL. f_equal.
  destruct vs as [|v vs]; [exfalso; apply (proj2 (Hv vx)); left; auto|]. assert (v = vx) by (destruct (proj1 (Hv v) (or_introl eq_refl)) as [<-|[]]; auto). subst v.
  destruct vs as [|w vs]; auto. exfalso. destruct (proj1 (Hv w) (or_intror (or_introl eq_refl))) as [Hw|[]]. subst w. inversion ND as [|? ? Hn _]; subst. apply Hn. left. auto.
Qed.
Lemma parab_tame : tame_below exSE parab gparab 7 9 1 (1/16).
Proof.
  intros s val A ng Ha Hs Hc Hle HA. destruct (parab_only _ val Ha Hs) as (x & Ex).
  destruct (parab_start x 0) as (_ & _ & Hcur & _).
  assert (Ea : s_assign (parab_at x 0) = s_assign s) by (rewrite Ex; reflexivity).
  unfold current in Hcur. rewrite Ea, Hc in Hcur. assert (E1 : s_cost s = s_cost (parab_at x 0)) by congruence. assert (E2 : s_res s = s_res (parab_at x 0)) by congruence. rewrite parab_cost in E1.
  pose proof (parab_jac x 0) as HJ. rewrite Ea, <- E2, HA in HJ. assert (EA : A = jac_at x) by congruence. subst A.
  rewrite E1 in Hle. unfold Rsqr in Hle. assert (B1 : 7 / 4 <= x * x) by nra. assert (B2 : x * x <= 9 / 4) by nra.
  split; [|split; [apply parab_norm; lra | rewrite <- Ea, E2; apply parab_curv]].
  intros y Ay Hy H. destruct y as [|a [|b y]]; try discriminate Hy. assert (Ay = [0 + 2 * x * a]) by (clear - H; revert H; comp; intros H; injection H as <-; reflexivity). subst Ay.
  assert (F1 : sumsq [a] = a * a) by (comp; ring). assert (F2 : sumsq [0 + 2 * x * a] = 4 * (x * x) * (a * a)) by (comp; ring). rewrite F1, F2.
  apply Rmult_le_compat_r; [apply Rle_0_sqr | lra].
Qed.
Lemma ex_solves : exists r0, well_posed exSE parab /\ graph_make exSE parab = Ok gparab /\ assigns exSE parab (scalars [vx] [3/2]) (const_of (3/2)) /\
  same_layout (as_layout (scalars (T := R) [vx] [3/2])) (g_layout gparab) /\ compute_cost exSE gparab (scalars [vx] [3/2]) = Ok (1/16, r0) /\ 2 * (1/28) + 1/28 * (1/28) < 1 /\
  1 * sqrt (1/16) <= 1/28 * (7 + 2 * Rlit 1 100000) /\ tame_below exSE parab gparab 7 9 1 (1/16).
Proof.
  destruct parab_posed as (WP & _). destruct (parab_start (3/2) 0) as (Q1 & Q2 & Q3 & _). exists (s_res (parab_at (3/2) 0)).
  split; [exact WP|]. split; [reflexivity|]. split; [exact Q1|]. split; [exact Q2|].
  split; [unfold current in Q3; rewrite parab_cost in Q3; replace (1/16) with (Rsqr (3/2 * (3/2) - 2)) by (unfold Rsqr; field); exact Q3|].
  split; [lra|]. split; [|exact parab_tame]. replace (1/16) with (Rsqr (1/4)) by (unfold Rsqr; field). rewrite sqrt_Rsqr by lra. unfold Rlit. lra.
Qed.

(* ---- rate ---- *)
Lemma tame_rate E fs g m F K t c0 sigma step : well_posed E fs -> graph_make E fs = Ok g -> 0 <= m -> 0 <= F -> 0 <= K -> 0 <= t -> 2 * t + t * t < 1 ->
  K * sqrt c0 <= t * (m + 2 * Rlit 1 100000) -> tame_below E fs g m F K c0 -> 0 <= sigma <= F -> seen_below E fs g sigma c0 -> full_body E step ->
  forall k s s', iterate k (step g) s = Ok s' -> fresh E fs g s -> s_cost s <= c0 ->
  fresh E fs g s' /\ 0 <= s_cost s' <= (1 - (1 - 2 * t - t * t) * (sigma / (F + Rlit 1 100000))) ^ k * s_cost s.
Proof.
  intros WP Eg Hm HF HK Ht Hth Hc0 HT Hsg HS Hb. destruct (posed_graph E fs WP) as (Hne & _ & Hrd & Hpd). pose proof WP as [CO Hok Hws _ _]. destruct (made E fs g Hok Eg) as (Hg & _).
  assert (Hth' : 0 <= 1 - 2 * t - t * t) by lra. assert (Hmu : 0 < Rlit 1 100000) by (unfold Rlit; lra). set (mu := Rlit 1 100000) in *. set (rho := 1 - (1 - 2 * t - t * t) * (sigma / (F + mu))).
  assert (Hq : 0 <= sigma / (F + mu) <= 1). { split; [apply Rmult_le_pos; [lra | apply Rlt_le, Rinv_0_lt_compat; lra]|]. apply (Rmult_le_reg_r (F + mu)); [lra|]. unfold Rdiv. rewrite Rmult_assoc, Rinv_l by lra. lra. }
  assert (Hrho : 0 <= rho <= 1).
  { unfold rho. assert (0 <= (1 - 2 * t - t * t) * (sigma / (F + mu))) by (apply Rmult_le_pos; lra).
    assert ((1 - 2 * t - t * t) * (sigma / (F + mu)) <= 1 * 1) by (apply Rmult_le_compat; try lra; nra). lra. }
  induction k as [|k IH]; intros s s' H Hs Hc; cbn [iterate] in H.
  - injection H as <-. split; auto. pose proof Hs as (Hcur & val & Hh). assert (Hr : ready E fs g s) by (split; [exists val; auto | auto]). pose proof (ready_cost E fs g s Hr). cbn [pow]. lra.
  - apply bind_ok in H. destruct H as (s1 & H1 & H2).
    pose proof Hs as (Hcur & val & Hh).
    assert (Hr : ready E fs g s) by (split; [exists val; auto | auto]). pose proof (ready_cost E fs g s Hr) as Hp.
    destruct (full_inv E fs g CO Hok Eg Hws step s s1 Hb H1) as (A & ATr & d & EA & Eb & _).
    destruct (ready_at E fs g CO Hok Eg Hws Hrd s A Hr EA) as (HA & Hlr & _ & _ & Hlr').
    assert (Hng : matmul (transpose A) (vneg (s_res s)) = Ok (mapply (transpose A) (vneg (s_res s)))) by (apply matmul_mapply; [apply transpose_ok; auto | auto]).
    assert (Hlay : same_layout (as_layout (s_assign s)) (g_layout g)) by (rewrite (ig_layout _ _ _ Hg); destruct Hh as (vs & _ & Hsl & _); exact Hsl).
    assert (Has : assigns E fs (s_assign s) val) by (apply holds_assigns; auto).
    assert (Htm : tame E g m F K (s, A, mapply (transpose A) (vneg (s_res s)))) by (apply (HT s val A _); auto).
    assert (Hsm : K * sqrt (s_cost s) <= t * (m + 2 * mu)) by (eapply Rle_trans; [|exact Hc0]; apply Rmult_le_compat_l; auto; apply sqrt_le_1_alt; auto).
    destruct (fall_one E fs g CO Hok Eg Hws Hrd m F K t Hm HF HK Ht Hth' step s s1 A _ Hb Hr H1 EA Hng Htm Hsm) as (Hr1 & Hc1). fold mu in Hc1.
    pose proof (HS s val A _ Has Hlay Hcur Hc EA Hng) as Hse.
    assert (P : (1 - 2 * t - t * t) * (sigma / (F + mu)) * s_cost s <= (1 - 2 * t - t * t) * (sumsq (mapply (transpose A) (vneg (s_res s))) / (F + mu))).
    { rewrite Rmult_assoc. apply Rmult_le_compat_l; auto. replace (sigma / (F + mu) * s_cost s) with (sigma * s_cost s / (F + mu)) by (field; lra). unfold Rdiv. apply Rmult_le_compat_r; auto. apply Rlt_le, Rinv_0_lt_compat. lra. }
    assert (Hs1 : fresh E fs g s1) by (destruct Hr1 as ((v1 & Hv1 & _) & Hcc); split; [auto | exists v1; auto]).
    assert (Hle : s_cost s1 <= rho * s_cost s) by (unfold rho; lra).
    assert (Hle2 : rho * s_cost s <= s_cost s) by nra.
    destruct (IH s1 s' H2 Hs1) as (G1 & G2 & G3); [lra|]. split; auto. split; auto. eapply Rle_trans; [exact G3|]. cbn [pow]. rewrite (Rmult_comm rho), Rmult_assoc. apply Rmult_le_compat_l; auto. apply pow_le. lra.
Qed.

Lemma gn_converges : forall (E : env R) fs g, well_posed E fs -> graph_make E fs = Ok g ->
  forall init val c0 r0 m F K t sigma, assigns E fs init val -> compute_cost E g init = Ok (c0, r0) ->
  0 <= m -> 0 <= F -> 0 <= K -> 0 <= t -> 2 * t + t * t < 1 -> K * sqrt c0 <= t * (m + 2 * Rlit 1 100000) -> tame_below E fs g m F K c0 ->
  0 < sigma <= F -> seen_below E fs g sigma c0 ->
  exists rho, 0 <= rho < 1 /\ rho = 1 - (1 - 2 * t - t * t) * (sigma / (F + Rlit 1 100000)) /\
  (forall cfg fuel, (iteration_cap (max_iterations cfg) <= fuel)%nat ->
     exists a' val' c r k, gn_solve E fuel cfg cholmod_solve g init = Some (Ok a') /\ assigns E fs a' val' /\ compute_cost E g a' = Ok (c, r) /\
       (1 <= k <= iteration_cap (max_iterations cfg))%nat /\ c <= rho ^ k * c0) /\
  (forall fuel unroll it, same_layout (as_layout init) (g_layout g) -> (1 <= it)%Z -> (Z.to_nat it <= fuel)%nat ->
     exists a' val' c r, fixed_solve E fuel unroll it cholmod_solve g init = Some (Ok a') /\ assigns E fs a' val' /\ compute_cost E g a' = Ok (c, r) /\ c <= rho ^ Z.to_nat it * c0).
Proof.
  intros E fs g WP Eg init val c0 r0 m F K t sigma Hi Ec Hm HF HK Ht Hth Hc0 HT Hsg HS.
  set (rho := 1 - (1 - 2 * t - t * t) * (sigma / (F + Rlit 1 100000))). exists rho. assert (Hsg' : 0 <= sigma <= F) by lra.
  split; [|split; [reflexivity|split]].
  - assert (Hmu : 0 < Rlit 1 100000) by (unfold Rlit; lra). assert (Hq : 0 < sigma / (F + Rlit 1 100000) <= 1).
    { split; [apply Rdiv_lt_0_compat; lra|]. apply (Rmult_le_reg_r (F + Rlit 1 100000)); [lra|]. unfold Rdiv. rewrite Rmult_assoc, Rinv_l by lra. lra. }
    assert (0 < (1 - 2 * t - t * t) * (sigma / (F + Rlit 1 100000))) by (apply Rmult_lt_0_compat; lra).
    assert ((1 - 2 * t - t * t) * (sigma / (F + Rlit 1 100000)) <= 1 * 1) by (apply Rmult_le_compat; try lra; nra). unfold rho. lra.
  - intros cfg fuel Hfu. apply (solve_costs E fs g WP Eg cholmod_solve cholmod_total init val c0 r0 Hi Ec (fun k c => c <= rho ^ k * c0) _ _ _ (iteration_cap (max_iterations cfg)) fuel (solver_gn E cholmod_solve cfg)).
    + destruct (solvers_terminate E g init cholmod_solve fuel) as (Hx & _). auto.
    + intros a k st Ha Ea Hr. apply runs_iterate in Hr. destruct (tame_rate E fs g m F K t c0 sigma _ WP Eg Hm HF HK Ht Hth Hc0 HT Hsg' HS (full_gn E cfg) k _ st Hr) as (G1 & _ & G2); [split; [exact Ea | exists val; exact Ha] | cbn; lra|]. split; [auto | exact G2].
  - intros fuel unroll it Hs Hit Hfu. apply (fixed_costs E fs g WP Eg cholmod_solve cholmod_total init val c0 r0 Hi Ec (fun k c => c <= rho ^ k * c0) fuel unroll it Hs Hit Hfu).
    intros st Est. destruct (tame_rate E fs g m F K t c0 sigma _ WP Eg Hm HF HK Ht Hth Hc0 HT Hsg' HS (full_fixed E it) _ _ st Est) as (G1 & _ & G2); [split; [exact Ec | exists val; apply (lin_holds E fs g WP Eg init val Hi Hs)] | cbn; lra|]. split; [auto | exact G2].
Qed.

Lemma parab_seen : seen_below exSE parab gparab 7 (1/16).
Proof.
  intros s val A ng Ha Hs Hc Hle HA Hng. destruct (parab_only _ val Ha Hs) as (x & Ex).
  destruct (parab_start x 0) as (_ & _ & Hcur & _).
  assert (Ea : s_assign (parab_at x 0) = s_assign s) by (rewrite Ex; reflexivity).
  unfold current in Hcur. rewrite Ea, Hc in Hcur. assert (E1 : s_cost s = s_cost (parab_at x 0)) by congruence. assert (E2 : s_res s = s_res (parab_at x 0)) by congruence. rewrite parab_cost in E1.
  pose proof (parab_jac x 0) as HJ. rewrite Ea, <- E2, HA in HJ. assert (EA : A = jac_at x) by congruence. subst A.
  rewrite E2, parab_grad in Hng. assert (En : ng = [2 * x * (2 - x * x)]) by congruence. subst ng.
  rewrite E1 in *. unfold Rsqr in *. assert (B1 : 7 / 4 <= x * x) by nra.
  assert (F1 : sumsq [2 * x * (2 - x * x)] = 4 * (x * x) * ((x * x - 2) * (x * x - 2))) by (comp; ring). rewrite F1.
  apply Rmult_le_compat_r; [apply Rle_0_sqr | lra].
Qed.
Lemma ex_rate : exists r0, well_posed exSE parab /\ graph_make exSE parab = Ok gparab /\ assigns exSE parab (scalars [vx] [3/2]) (const_of (3/2)) /\
  same_layout (as_layout (scalars (T := R) [vx] [3/2])) (g_layout gparab) /\ compute_cost exSE gparab (scalars [vx] [3/2]) = Ok (1/16, r0) /\ 2 * (1/28) + 1/28 * (1/28) < 1 /\
  1 * sqrt (1/16) <= 1/28 * (7 + 2 * Rlit 1 100000) /\ tame_below exSE parab gparab 7 9 1 (1/16) /\ 0 < 7 <= 9 /\ seen_below exSE parab gparab 7 (1/16).
Proof.
  destruct ex_solves as (r0 & H1 & H2 & H3 & H4 & H5 & H6 & H7 & H8). exists r0. do 8 (split; [assumption|]). split; [lra | exact parab_seen].
Qed.

(* ---- iterations with a large gradient ---- *)
Lemma steep_sum eps D l : 0 < D -> INR (steep eps l) * (eps / D) <= vsum (map (fun v => sumsq (snd v) / D) l).
Proof.
  intros HD. assert (Hi : 0 < / D) by (apply Rinv_0_lt_compat; auto). induction l as [|v l IH]; cbn [steep map]; [rewrite vsum_nil; simpl; lra|]. rewrite vsum_cons.
  destruct (Rlt_dec eps (sumsq (snd v))) as [H|_].
  - rewrite S_INR. assert (eps / D <= sumsq (snd v) / D) by (apply Rmult_le_compat_r; lra). lra.
  - assert (0 <= sumsq (snd v) / D) by (apply Rmult_le_pos; [apply sumsq_nonneg | lra]). lra.
Qed.
Lemma gn_steep : forall (E : env R) fs g, classes_ok (e_cls E) -> (forall f, In f fs -> factor_ok f) -> graph_make E fs = Ok g ->
  well_shaped E fs -> total residual_dim fs <> 0%nat ->
  forall s val, assigns E fs (s_assign s) val -> same_layout (as_layout (s_assign s)) (g_layout g) -> current E g s ->
  forall m F K t step l s' eps, 0 <= m -> 0 <= F -> 0 <= K -> 0 <= t -> 2 * t + t * t < 1 -> K * sqrt (s_cost s) <= t * (m + 2 * Rlit 1 100000) ->
  full_body E step -> walk E g step l s s' -> (forall v, In v l -> tame E g m F K v) ->
  INR (steep eps l) * ((1 - 2 * t - t * t) * eps) <= (s_cost s - s_cost s') * (F + Rlit 1 100000).
Proof.
  intros E fs g CO Hok Eg Hws Hne s val Ha Hs Hc m F K t step l s' eps Hm HF HK Ht Hth Hk Hb Hw Htm.
  destruct (gn_falls E fs g CO Hok Eg Hws Hne s val Ha Hs Hc m F K t step l s' Hm HF HK Ht Hth Hk Hb Hw Htm) as (H & _).
  assert (HD : 0 < F + Rlit 1 100000) by (unfold Rlit; lra). set (D := F + Rlit 1 100000) in *. pose proof (steep_sum eps D l HD) as HS. set (w := vsum (map (fun v => sumsq (snd v) / D) l)) in *.
  assert (H1 : (1 - 2 * t - t * t) * (INR (steep eps l) * (eps / D)) <= s_cost s - s_cost s') by (eapply Rle_trans; [apply Rmult_le_compat_l; [lra | exact HS] | exact H]).
  apply (Rmult_le_compat_r D) in H1; [|lra]. replace ((1 - 2 * t - t * t) * (INR (steep eps l) * (eps / D)) * D) with (INR (steep eps l) * ((1 - 2 * t - t * t) * eps)) in H1 by (field; lra). exact H1.
Qed.
