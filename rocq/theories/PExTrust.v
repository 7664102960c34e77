(* Bundling lemmas and concrete instances for C101. *)
From Coq Require Import List Arith Bool ZArith Lia Reals Lra Psatz.
From Verif Require Import Num NumR Py Arr MLayout MAssign MNoise MSparse MFactor MGraph MLinear MSolver MAuto MDual SpecLayout SpecTree SpecAssign SpecGraph SpecSparse SpecDeriv SpecSolver SpecOrder SpecInv SpecAuto SpecDual SpecLin SpecCgLin SpecDescent SpecLocal SpecSmooth SpecTrust.
From Verif Require Import PBase PVec PGraph PSolver PSolver2 PSolverR PLin PExGraph PInv PHold PExInv PExLinDl PExDescent PLocal PExLocal PExPart PExDual PSmooth3 PSmooth4 PTrust PTrust2 PExSmooth Ex ExG ExS.
Import ListNotations.
Local Open Scope R_scope.

(* the constants exist for programs at an exact fit *)
Lemma trust_constants : forall C prog fs g z valz, let E := plain_programs C prog in
  program_problem C prog fs -> graph_make E fs = Ok g -> assigns E fs z valz -> same_layout (as_layout z) (g_layout g) ->
  exact_fit prog fs valz -> determined_at E g z ->
  exists rho m K f L, exact_solution E fs g z valz rho m K f L.
Proof.
  intros C prog fs g z valz E PP Eg Hza Hzl Hfit Hdet. destruct (smooth_constants C prog fs g z valz PP Eg Hza Hzl Hfit Hdet) as (rho & m & K & f & Pr & (G1 & G2 & G3 & G4 & G5 & (cz & rz & Ez & Hreg) & G6 & G7 & G8 & G9) & Pf & Hb).
  destruct (fit_taylor C prog fs PP g Eg z valz Hza Hzl Hfit) as (r & B & P1 & P2 & Ht).
  destruct (problem_near C prog fs PP g Eg z valz Hza Hzl Hfit) as (_ & _ & _ & _ & _ & Ec & _).
  set (rho' := Rmin rho r). assert (L1 : rho' <= rho) by apply Rmin_l. assert (L2 : rho' <= r) by apply Rmin_r. exists rho', m, K, f, B.
  split; [apply Rmin_pos; auto|]. split; [|split; [|split; [|split; [|split]]]]; auto.
  - do 5 (split; auto). split; [|split; auto; split; auto; split; auto].
    + exists cz, rz. split; auto. intros b val c rr A H1 H2 H3 H4 e H5. apply (Hreg b val c rr A H1 H2 H3 H4). change (vnorm e <= rho). lra.
    + eapply Rle_lt_trans; [|exact G9]. apply Rplus_le_compat_l. apply Rmult_le_compat_l; auto. apply Rmult_le_pos; lra.
  - eexists. etransitivity; [exact Ec|]. do 2 f_equal. rewrite sumsq_dot. apply vdot_zero_r.
  - intros b val c rr A H1 H2 H3 H4 H5. apply (Hb b val c rr A H1 H2 H3 H4). lra.
Qed.

Lemma trust_near : forall (E : env R) fs g z valz rho m K f L, exact_solution E fs g z valz rho m K f L ->
  forall q, q < 1 -> exists sigma M, 0 < sigma /\ 0 < M /\
  (forall lambda, 0 <= lambda -> exists th, 0 <= th < 1 /\ forall cfg k s val, 0 < lm_quality_min cfg <= q -> 1 <= lambda_factor cfg -> 0 <= lambda_min cfg -> 0 <= s_extra s <= lambda ->
     at_values E fs g s val -> distance fs val valz <= sigma ->
     exists s', iterate k (lm_step E cfg cholmod_solve g) s = Ok s' /\ converging_run E fs g valz (lm_step E cfg cholmod_solve) (lm_quality_min cfg) M th k s val s') /\
  (forall radius, 0 < radius -> exists th, 0 <= th < 1 /\ forall cfg k s val, 0 < dl_quality_min cfg <= q -> radius <= s_extra s ->
     at_values E fs g s val -> distance fs val valz <= sigma ->
     exists s', iterate k (dl_step E cfg cholmod_solve g) s = Ok s' /\ converging_run E fs g valz (dl_step E cfg cholmod_solve) (dl_quality_min cfg) M th k s val s').
Proof.
  intros E fs g z valz rho m K f L ES q Hq. set (eta := Rmax q (7 / 8)). assert (H1 : q <= eta) by apply Rmax_l. assert (H2 : 7 / 8 <= eta) by apply Rmax_r. assert (H3 : eta < 1) by (apply Rmax_lub_lt; lra).
  destruct (both_runs E fs g z valz rho m K f L ES eta ltac:(lra) ltac:(lra)) as (sigma & M & P1 & P2 & HL & HD). exists sigma, M. split; auto. split; auto. split.
  - intros lambda Hl. destruct (HL lambda Hl) as (th & Hth & H). exists th. split; auto. intros cfg k s val Hc. apply H. lra.
  - intros radius Hr. destruct (HD radius Hr) as (th & Hth & H). exists th. split; auto. intros cfg k s val Hc. apply H. lra.
Qed.

(* what solve returns, when every run of the loop body converges *)
Lemma solve_near E fs g z valz rho m K f L : exact_solution E fs g z valz rho m K f L -> forall step qmin M th extra fuel init val a',
  (forall k s, s_extra s = extra -> at_values E fs g s val -> exists s', iterate k (step g) s = Ok s' /\ converging_run E fs g valz step qmin M th k s val s') ->
  assigns E fs init val -> solve_with E fuel step extra g init = Some (Ok a') ->
  exists k val', (1 <= k)%nat /\ assigns E fs a' val' /\ distance2 fs val' valz <= M * th ^ k * distance2 fs val valz.
Proof.
  intros (_ & (HP & WP & Eg & _) & _) step qmin M th extra fuel init val a' Hrun Hi H. pose proof WP as [CO Hok Hws _ _]. destruct (made E fs g Hok Eg) as (Hg & _).
  unfold solve_with in H. rewrite (ig_layout _ _ _ Hg) in H. destruct (update_holds E CO fs init val Hi) as (a & Eu & Ha). rewrite Eu in H.
  unfold init_state in H. destruct (compute_cost E g a) as [[c0 r0]|] eqn:Ec; cbn [bind fst snd] in H; [|discriminate].
  destruct (while_loop fuel _ _ _) as [[st|]|] eqn:Ew; try discriminate. injection H as H.
  destruct (while_runs _ _ _ _ Ew) as (k & _ & Hr & Hdn). assert (Hk : (1 <= k)%nat). { destruct k; [|lia]. inversion Hr; subst. discriminate. }
  set (s0 := mkState 0 a c0 r0 false extra) in *. assert (Ha0 : at_values E fs g s0 val) by (eapply fresh_at; eauto; split; [exact Ec | exists val; auto]).
  destruct (Hrun k s0 eq_refl Ha0) as (s' & Es & (val' & Hav & _ & Hle & _)). apply runs_iterate in Hr. rewrite Hr in Es. injection Es as <-.
  destruct Hav as (Hv1 & Hv2 & Hv3). pose proof (lin_holds E fs g WP Eg _ _ Hv1 Hv2) as Hh.
  destruct (update_back E CO fs (s_assign st) val' init val Hh Hi) as (a1 & Eb & Ha1). rewrite H in Eb. injection Eb as <-. exists k, val'. auto.
Qed.

Lemma trust_solves : forall (E : env R) fs g z valz rho m K f L, exact_solution E fs g z valz rho m K f L ->
  forall q, q < 1 -> exists sigma M, 0 < sigma /\ 0 < M /\
  (forall lambda, 0 <= lambda -> exists th, 0 <= th < 1 /\ forall cfg fuel init val a', 0 < lm_quality_min cfg <= q -> 1 <= lambda_factor cfg -> 0 <= lambda_min cfg -> 0 <= lambda_initial cfg <= lambda ->
     assigns E fs init val -> distance fs val valz <= sigma -> lm_solve E fuel cfg cholmod_solve g init = Some (Ok a') ->
     exists k val', (1 <= k)%nat /\ assigns E fs a' val' /\ distance2 fs val' valz <= M * th ^ k * distance2 fs val valz) /\
  (forall radius, 0 < radius -> exists th, 0 <= th < 1 /\ forall cfg fuel init val a', 0 < dl_quality_min cfg <= q -> radius <= radius_initial cfg ->
     assigns E fs init val -> distance fs val valz <= sigma -> dl_solve E fuel cfg cholmod_solve g init = Some (Ok a') ->
     exists k val', (1 <= k)%nat /\ assigns E fs a' val' /\ distance2 fs val' valz <= M * th ^ k * distance2 fs val valz).
Proof.
  intros E fs g z valz rho m K f L ES q Hq. destruct (trust_near E fs g z valz rho m K f L ES q Hq) as (sigma & M & P1 & P2 & HL & HD). exists sigma, M. split; auto. split; auto. split.
  - intros lambda Hl. destruct (HL lambda Hl) as (th & Hth & H). exists th. split; auto. intros cfg fuel init val a' H1 H2 H3 H4 H5 H6 H7.
    eapply (solve_near E fs g z valz rho m K f L ES (lm_step E cfg cholmod_solve) (lm_quality_min cfg)); [|exact H5 | exact H7]. intros k s Hx Ha. apply H; auto. rewrite Hx. auto.
  - intros radius Hr. destruct (HD radius Hr) as (th & Hth & H). exists th. split; auto. intros cfg fuel init val a' H1 H2 H5 H6 H7.
    eapply (solve_near E fs g z valz rho m K f L ES (dl_step E cfg cholmod_solve) (dl_quality_min cfg)); [|exact H5 | exact H7]. intros k s Hx Ha. apply H; auto. rewrite Hx. auto.
Qed.

(* the same for programs with default Jacobians *)
Lemma trust_programs : forall C prog fs g z valz, let E := plain_programs C prog in
  program_problem C prog fs -> graph_make E fs = Ok g -> assigns E fs z valz -> same_layout (as_layout z) (g_layout g) ->
  exact_fit prog fs valz -> determined_at E g z ->
  forall q, q < 1 -> exists sigma M, 0 < sigma /\ 0 < M /\
  (forall lambda, 0 <= lambda -> exists th, 0 <= th < 1 /\ forall cfg k s val, 0 < lm_quality_min cfg <= q -> 1 <= lambda_factor cfg -> 0 <= lambda_min cfg -> 0 <= s_extra s <= lambda ->
     at_values E fs g s val -> distance fs val valz <= sigma ->
     exists s', iterate k (lm_step E cfg cholmod_solve g) s = Ok s' /\ converging_run E fs g valz (lm_step E cfg cholmod_solve) (lm_quality_min cfg) M th k s val s') /\
  (forall radius, 0 < radius -> exists th, 0 <= th < 1 /\ forall cfg k s val, 0 < dl_quality_min cfg <= q -> radius <= s_extra s ->
     at_values E fs g s val -> distance fs val valz <= sigma ->
     exists s', iterate k (dl_step E cfg cholmod_solve g) s = Ok s' /\ converging_run E fs g valz (dl_step E cfg cholmod_solve) (dl_quality_min cfg) M th k s val s').
Proof.
  intros C prog fs g z valz E PP Eg Hza Hzl Hfit Hdet. destruct (trust_constants C prog fs g z valz PP Eg Hza Hzl Hfit Hdet) as (rho & m & K & f & L & ES). exact (trust_near E fs g z valz rho m K f L ES).
Qed.
Lemma trust_program_solves : forall C prog fs g z valz, let E := plain_programs C prog in
  program_problem C prog fs -> graph_make E fs = Ok g -> assigns E fs z valz -> same_layout (as_layout z) (g_layout g) ->
  exact_fit prog fs valz -> determined_at E g z ->
  forall q, q < 1 -> exists sigma M, 0 < sigma /\ 0 < M /\
  (forall lambda, 0 <= lambda -> exists th, 0 <= th < 1 /\ forall cfg fuel init val a', 0 < lm_quality_min cfg <= q -> 1 <= lambda_factor cfg -> 0 <= lambda_min cfg -> 0 <= lambda_initial cfg <= lambda ->
     assigns E fs init val -> distance fs val valz <= sigma -> lm_solve E fuel cfg cholmod_solve g init = Some (Ok a') ->
     exists k val', (1 <= k)%nat /\ assigns E fs a' val' /\ distance2 fs val' valz <= M * th ^ k * distance2 fs val valz) /\
  (forall radius, 0 < radius -> exists th, 0 <= th < 1 /\ forall cfg fuel init val a', 0 < dl_quality_min cfg <= q -> radius <= radius_initial cfg ->
     assigns E fs init val -> distance fs val valz <= sigma -> dl_solve E fuel cfg cholmod_solve g init = Some (Ok a') ->
     exists k val', (1 <= k)%nat /\ assigns E fs a' val' /\ distance2 fs val' valz <= M * th ^ k * distance2 fs val valz).
Proof.
  intros C prog fs g z valz E PP Eg Hza Hzl Hfit Hdet. destruct (trust_constants C prog fs g z valz PP Eg Hza Hzl Hfit Hdet) as (rho & m & K & f & L & ES). exact (trust_solves E fs g z valz rho m K f L ES).
Qed.
Lemma trust_example : exists g z valz rho m K f L, exact_solution (plain_programs plane range_prog) two_ranges g z valz rho m K f L.
Proof.
  destruct ranges_example as (g & z & valz & H1 & H2 & H3 & H4 & H5 & H6). destruct (trust_constants _ _ _ g z valz H1 H2 H3 H4 H5 H6) as (rho & m & K & f & L & ES). exists g, z, valz, rho, m, K, f, L. exact ES.
Qed.

(* ---- without an exact fit: x and x^2 + 5, least at x = 0, where the residual is (0, 5) ---- *)
Definition well : list (factor R) := [anchor vx 0; square vx (-5)].
Definition gwell : graph R := graph_of well.
Definition well_jac (x : R) : coo R := mkCoo [1; 2 * x] (mkCoords [0; 1]%nat [0; 0]%nat) (2, 1)%nat.
Lemma well_posed_ok : well_posed exSE well /\ plain_problem exSE well.
Proof.
  assert (Hf : forall f, In f well -> exists v z, In v [vx; vy] /\ (f = square v z \/ f = anchor v z)) by (intros f [<-|[<-|[]]]; [exists vx, 0%Z | exists vx, (-5)%Z]; simpl; auto).
  split; [|intros v [<-|[]]; split; reflexivity]. split.
  - exact exS_classes.
  - apply ok_two; auto.
  - apply shaped_two; auto.
  - exists (square vx (-5)). split; [right; left; auto | discriminate].
  - exists vx. split; [left; auto | discriminate].
Qed.
Definition well_value (x : R) : R := x * x + (x * x + 5) * (x * x + 5).
Lemma well_cost x : compute_cost exSE gwell (scalars [vx] [x]) = Ok (well_value x, [x; x * x + 5]).
Proof. comp. unfold well_value, Rlit. do 2 f_equal; [lra|]. f_equal; [lra|]. f_equal. lra. Qed.
Lemma well_jacobian x r1 r2 : compute_whitened_residual_jacobian exSE gwell (scalars [vx] [x]) [r1; r2] = Ok (well_jac x).
Proof. comp. unfold well_jac, Rlit. do 2 f_equal. f_equal; [lra|]. f_equal. lra. Qed.
Lemma well_gradient x : matmul (transpose (well_jac x)) (vneg [x; x * x + 5]) = Ok [- (x * (11 + 2 * (x * x)))].
Proof. comp. do 2 f_equal. lra. Qed.
Lemma well_solve x b l i : 0 <= l -> cholmod_solve (well_jac x) [b] l i = Ok [b / (1 + 4 * (x * x) + l + 1 / 100000)].
Proof.
  intros Hl. assert (0 <= x * x) by nra. comp. do 2 f_equal. unfold Rlit. field. nra.
Qed.
Definition well_at (x l : R) : sstate R := mkState 0 (scalars [vx] [x]) (well_value x) [x; x * x + 5] false l.
Lemma well_rejected qmin x l k s' A d prop c r q : 0 < x -> 0 < qmin -> 2 < k -> (1 + 4 * (x * x)) * k <= 11 + 2 * (x * x) ->
  trust_step exSE gwell qmin (well_at x l) s' A d prop c r q -> d = [- (x * k)] -> s_assign s' = scalars [vx] [x].
Proof.
  intros Hx Hq Hk Hk2 [EA Ep Ec (Ad & Em & Eq) _ Hrej _ _] ->. cbn [s_assign s_cost s_res well_at] in *. rewrite well_jacobian in EA. injection EA as <-.
  assert (Epr : prop = scalars [vx] [x + - (x * k)]) by (revert Ep; unfold scalars; comp; intros Ep; injection Ep as <-; reflexivity). subst prop. rewrite well_cost in Ec. injection Ec as <- <-.
  assert (Ea : Ad = [- (x * k); 2 * x * (- (x * k))]). { revert Em. comp. intros Em. injection Em as <-. f_equal; [lra|]. f_equal. lra. } subst Ad.
  assert (Es : sumsq (vadd [- (x * k); 2 * x * - (x * k)] [x; x * x + 5]) = well_value x - x * x * k * (2 * (11 + 2 * (x * x)) - (1 + 4 * (x * x)) * k)).
  { unfold well_value, sumsq, vsum. cbn. ring. }
  apply Hrej. destruct (nleb qmin q) eqn:Hle; auto. exfalso. apply Rleb_ok in Hle. revert Hle. apply Rlt_not_le. eapply Rle_lt_trans; [|exact Hq]. rewrite Eq, Es. rn.
  assert (X2 : 0 < x * x) by nra. assert (P1 : 0 < x * x * k * (2 * (11 + 2 * (x * x)) - (1 + 4 * (x * x)) * k)) by (apply Rmult_lt_0_compat; [apply Rmult_lt_0_compat; lra | lra]).
  assert (P2 : 0 <= well_value (x + - (x * k)) - well_value x).
  { assert (Hy : x * x <= (x + - (x * k)) * (x + - (x * k))) by (replace ((x + - (x * k)) * (x + - (x * k))) with (x * x * ((k - 1) * (k - 1))) by ring; assert (1 <= (k - 1) * (k - 1)) by nra; nra). unfold well_value. nra. }
  replace (well_value x - x * x * k * (2 * (11 + 2 * (x * x)) - (1 + 4 * (x * x)) * k) - well_value x) with (- (x * x * k * (2 * (11 + 2 * (x * x)) - (1 + 4 * (x * x)) * k))) by ring.
  set (u := x * x * k * _) in *. unfold Rdiv. rewrite Rinv_opp. assert (0 < / u) by (apply Rinv_0_lt_compat; auto). nra.
Qed.
Lemma well_step x l : 0 < x <= 1 / 10 -> 0 <= l <= 1 -> let k := (11 + 2 * (x * x)) / (1 + 4 * (x * x) + l + 1 / 100000) in
  2 < k /\ (1 + 4 * (x * x)) * k <= 11 + 2 * (x * x) /\ k <= 12 /\ forall i, cholmod_solve (well_jac x) [- (x * (11 + 2 * (x * x)))] l i = Ok [- (x * k)].
Proof.
  intros Hx Hl k. assert (X2 : 0 < x * x <= 1 / 100) by nra. set (D := 1 + 4 * (x * x) + l + 1 / 100000) in *. assert (PD : 1 < D <= 3) by (unfold D; lra).
  assert (Ek : k * D = 11 + 2 * (x * x)) by (unfold k; field; lra). assert (Pk : 0 < k) by (apply Rdiv_lt_0_compat; lra). split; [nra|]. split; [rewrite <- Ek; unfold D; nra|]. split; [nra|].
  intros i. rewrite well_solve by lra. do 2 f_equal. unfold k. fold D. field. lra.
Qed.

Lemma trust_refuted : exists (E : env R) fs g z valz cz rz, plain_problem E fs /\ well_posed E fs /\ graph_make E fs = Ok g /\ assigns E fs z valz /\ same_layout (as_layout z) (g_layout g) /\
  compute_cost E g z = Ok (cz, rz) /\
  (forall b val c r, assigns E fs b val -> same_layout (as_layout b) (g_layout g) -> compute_cost E g b = Ok (c, r) -> cz + 11 * distance2 fs val valz <= c) /\
  forall sigma, 0 < sigma -> exists val, 0 < distance fs val valz <= sigma /\
    (exists s s', at_values E fs g s val /\ s_extra s = lambda_initial (lm_default (T := R) 100) /\ lm_step E (lm_default 100) cholmod_solve g s = Ok s' /\ s_assign s' = s_assign s) /\
    (exists s s', at_values E fs g s val /\ s_extra s = radius_initial (dl_default (T := R) 100) /\ dl_step E (dl_default 100) cholmod_solve g s = Ok s' /\ s_assign s' = s_assign s).
Proof.
  destruct well_posed_ok as (WP & HP).
  assert (Ha : forall x, assigns exSE well (scalars [vx] [x]) (const_of x)).
  { intros x. exists [vx]. split; [split; [repeat constructor; simpl; tauto | split; reflexivity]|]. split; [intros v; simpl; tauto|]. intros v [<-|[]]. reflexivity. }
  assert (Hl : forall x, same_layout (as_layout (scalars [vx] [x])) (g_layout gwell)) by (intros x; repeat split).
  exists exSE, well, gwell, (scalars [vx] [0]), (const_of 0), (well_value 0), [0; 0 * 0 + 5]. split; auto. split; auto. split; [reflexivity|]. split; auto. split; auto. split; [apply well_cost|]. split.
  - intros b val c r Hb Hs Ec. pose proof (lin_holds exSE well gwell WP eq_refl b val Hb Hs) as Hh.
    pose proof (pl_held_length exSE well HP exS_classes b val Hh) as Hlen. pose proof Hh as (vs & Hwf & Hsl & _). pose proof (holds_vars exSE well vs b Hwf Hsl) as Hv.
    assert (Hx : exists x, b = scalars [vx] [x]).
    { destruct Hwf as (ND & HL & _). change (length (as_storage b) = 1%nat) in Hlen. destruct b as [st lay]. cbn [as_storage as_layout] in *.
      destruct st as [|x [|y st]]; try discriminate. exists x. unfold scalars. f_equal. rewrite HL. f_equal.
      destruct vs as [|v vs]; [exfalso; apply (proj2 (Hv vx)); left; auto|]. assert (v = vx) by (destruct (proj1 (Hv v) (or_introl eq_refl)) as [<-|[]]; auto). subst v.
      destruct vs as [|w vs]; auto. exfalso. destruct (proj1 (Hv w) (or_intror (or_introl eq_refl))) as [Hw|[]]. subst w. inversion ND as [|? ? Hn _]; subst. apply Hn. left. auto. }
    destruct Hx as (x & ->). rewrite well_cost in Ec. injection Ec as <- <-.
    rewrite <- (pl_distance exSE well HP exS_classes _ _ _ _ Hh (lin_holds exSE well gwell WP eq_refl _ _ (Ha 0) (Hl 0))).
    replace (sumsq (vsub (as_storage (scalars [vx] [0])) (as_storage (scalars [vx] [x])))) with (x * x) by (unfold sumsq, vsum, scalars; cbn; lra). unfold well_value. nra.
  - intros sigma Hsig. set (x := Rmin sigma (1 / 20)). assert (X1 : x <= sigma) by apply Rmin_l. assert (X3 : x <= 1 / 20) by apply Rmin_r. assert (X2 : x <= 1 / 10) by lra. assert (X0 : 0 < x) by (apply Rmin_pos; lra).
    exists (const_of x). split.
    { unfold distance. rewrite <- (pl_distance exSE well HP exS_classes _ _ _ _ (lin_holds exSE well gwell WP eq_refl _ _ (Ha x) (Hl x)) (lin_holds exSE well gwell WP eq_refl _ _ (Ha 0) (Hl 0))).
      replace (sumsq (vsub (as_storage (scalars [vx] [0])) (as_storage (scalars [vx] [x])))) with (x * x) by (unfold sumsq, vsum, scalars; cbn; lra). rewrite sqrt_square; lra. }
    destruct (posed_graph exSE well WP) as (Hne & _ & Hrd & Hpd). pose proof WP as [CO Hok Hws _ _]. destruct (made exSE well gwell Hok eq_refl) as (Hg & _).
    assert (Hat : forall l, at_values exSE well gwell (well_at x l) (const_of x)) by (intros l; split; [apply Ha | split; [apply Hl | apply well_cost]]).
    assert (Hrs : forall l, PTotal.ready exSE well (well_at x l)) by (intros l; split; [exists (const_of x); apply (lin_holds exSE well gwell WP eq_refl _ _ (Ha x) (Hl x)) | reflexivity]).
    assert (Hll : 0 <= lambda_initial (lm_default (T := R) 100) <= 1) by (cbn; unfold Rlit; lra). split.
    + destruct (PTotal.lm_total exSE CO well gwell Hok Hg Hne Hrd Hpd Hws cholmod_solve PTotal.cholmod_total (lm_default 100) _ (Hrs (lambda_initial (lm_default 100)))) as (s' & Es & _).
      exists (well_at x (lambda_initial (lm_default 100))), s'. split; auto. split; auto. split; auto.
      destruct (lm_tr exSE _ _ _ _ _ Es) as (A & ng & d & prop & c & r & q & Ht & ET & Ed & _). pose proof (tr_A _ _ _ _ _ _ _ _ _ _ _ Ht) as EA. cbn [s_assign s_res s_extra well_at] in *.
      rewrite well_jacobian in EA. injection EA as <-. rewrite well_gradient in ET. injection ET as <-. destruct (well_step x _ (conj X0 X2) Hll) as (K1 & K2 & _ & K4). rewrite K4 in Ed. injection Ed as <-.
      eapply well_rejected; [exact X0 | | exact K1 | exact K2 | exact Ht | reflexivity]. cbn. unfold Rlit. lra.
    + destruct (PTotal.dl_total exSE CO well gwell Hok Hg Hne Hrd Hpd Hws cholmod_solve PTotal.cholmod_total (dl_default 100) _ (Hrs (radius_initial (dl_default 100)))) as (s' & Es & _).
      exists (well_at x (radius_initial (dl_default 100))), s'. split; auto. split; auto. split; auto.
      destruct (dl_tr exSE _ _ _ _ _ Es) as (A & ng & gn & Asd & d & prop & c & r & q & Ht & ET & Egn & _ & Ed & _). pose proof (tr_A _ _ _ _ _ _ _ _ _ _ _ Ht) as EA. cbn [s_assign s_res s_extra well_at] in *.
      rewrite well_jacobian in EA. injection EA as <-. rewrite well_gradient in ET. injection ET as <-. destruct (well_step x 0 (conj X0 X2) ltac:(lra)) as (K1 & K2 & K3 & K4). change (n0 (T := R)) with 0 in Egn. rewrite K4 in Egn. injection Egn as <-.
      eapply well_rejected; [exact X0 | | exact K1 | exact K2 | exact Ht |]; [cbn; unfold Rlit; lra|].
      rewrite Ed. unfold dogleg_step_of. rewrite norm1, Rabs_Ropp, Rabs_right by (apply Rle_ge, Rmult_le_pos; lra).
      assert (Hle : nleb (x * ((11 + 2 * (x * x)) / (1 + 4 * (x * x) + 0 + 1 / 100000))) (radius_initial (dl_default (T := R) 100)) = true); [|rewrite Hle; reflexivity].
      apply Rleb_ok. change (radius_initial (dl_default (T := R) 100)) with 1. set (k := (11 + _) / _) in *. nra.
Qed.
(* the default settings qualify *)
Lemma trust_defaults : let l := lm_default (T := R) 100 in let d := dl_default (T := R) 100 in
  0 < lm_quality_min l <= 1 / 2 /\ 1 <= lambda_factor l /\ 0 <= lambda_min l /\ 0 <= lambda_initial l /\ 0 < dl_quality_min d <= 1 / 2 /\ 0 < radius_initial d.
Proof. cbn. unfold Rlit. repeat split; lra. Qed.
