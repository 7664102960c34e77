(* Bundling lemmas and concrete instances for C102. *)
From Coq Require Import List Arith Bool ZArith Lia Reals Lra Psatz.
From Verif Require Import Num NumR Py Arr MLayout MAssign MNoise MSparse MFactor MGraph MLinear MSolver MAuto MDual SpecLayout SpecTree SpecAssign SpecGraph SpecSparse SpecDeriv SpecSolver SpecOrder SpecInv SpecAuto SpecDual SpecLin SpecCgLin SpecDescent SpecLocal SpecSmooth SpecTrust SpecFinish.
From Verif Require Import PBase PVec PGraph PSolver PSolver2 PSolverR PLin PExGraph PTotal PInv PHold PExInv PExLinDl PExDescent PLocal PExLocal PExPart PExDual PExHalt PSmooth3 PSmooth4 PTrust PTrust2 PFinish PFinish2 PExSmooth PExTrust Ex ExG ExS PExSym.
Import ListNotations.
Local Open Scope R_scope.

Lemma stop_solves : forall (E : env R) fs g z valz rho m K f L, exact_solution E fs g z valz rho m K f L ->
  forall q, q < 1 -> exists sigma M, 0 < sigma /\ 0 < M /\
  (exists th D delta, 0 <= th < 1 /\ 0 <= D /\ 0 < delta /\ forall cfg,
     stops_near E fs valz sigma M th D delta cfg (fun fuel => gn_solve E fuel cfg cholmod_solve g)) /\
  (forall lambda, 0 <= lambda -> exists th D delta, 0 <= th < 1 /\ 0 <= D /\ 0 < delta /\ forall cfg, 0 < lm_quality_min cfg <= q -> 1 <= lambda_factor cfg -> 0 <= lambda_min cfg -> 0 <= lambda_initial cfg <= lambda ->
     stops_near E fs valz sigma M th D delta (lm_term cfg) (fun fuel => lm_solve E fuel cfg cholmod_solve g)) /\
  (forall radius, 0 < radius -> exists th D delta, 0 <= th < 1 /\ 0 <= D /\ 0 < delta /\ forall cfg, 0 < dl_quality_min cfg <= q -> radius <= radius_initial cfg ->
     stops_near E fs valz sigma M th D delta (dl_term cfg) (fun fuel => dl_solve E fuel cfg cholmod_solve g)).
Proof.
  intros E fs g z valz rho m K f L ES q Hq. set (eta := Rmax q (7 / 8)). assert (H1 : q <= eta) by apply Rmax_l. assert (H2 : 7 / 8 <= eta) by apply Rmax_r. assert (H3 : eta < 1) by (apply Rmax_lub_lt; lra).
  destruct (solvers_halt E fs g z valz rho m K f L ES eta ltac:(lra) ltac:(lra)) as (sigma & M & P1 & P2 & (kg & Pg & HG) & HLm & HD). exists sigma, M. split; auto. split; auto.
  pose proof (grow_pos E fs g z valz rho m K f L ES) as Pgr. pose proof ES as (Pr & (_ & WP & Eg & _ & _ & _ & Pm & PK & _) & _ & Pf & _). destruct (size_pos rho K f Pr PK Pf) as (Ps & _).
  assert (Pre : forall kap, 0 < kap -> 0 <= reach z rho m K f kap). { intros kap Hk. unfold reach. pose proof (PBasin4.norm_pos (as_storage z)). assert (0 < m * m * kap) by (apply Rmult_lt_0_compat; auto; apply Rmult_lt_0_compat; auto).
    apply Rmult_le_pos; [apply Rmult_le_pos; [lra | left; apply Rinv_0_lt_compat; auto]|]. apply Rmult_le_pos; [apply Rmult_le_pos; [lra | left; apply Rinv_0_lt_compat; auto] | lra]. }
  assert (Pek : forall kap, 0 < kap -> 0 < eta * (grow rho m K f * kap)) by (intros kap Hk; apply Rmult_lt_0_compat; [lra | apply Rmult_lt_0_compat; auto]).
  assert (Hex : forall kap, 0 < kap -> forall (P : R -> R -> R -> Prop), P (Rmax 0 (1 - eta * (grow rho m K f * kap))) (reach z rho m K f kap) (eta * (grow rho m K f * kap)) -> exists th D delta, 0 <= th < 1 /\ 0 <= D /\ 0 < delta /\ P th D delta).
  { intros kap Hk P HP. do 3 eexists. split; [|split; [|split; [|exact HP]]]; auto. specialize (Pek kap Hk). split; [apply Rmax_l | apply Rmax_lub_lt; lra]. }
  split; [|split].
  - apply (Hex kg Pg). intros cfg Htol Hp fuel init val Hfu Hi Hd.
    apply (solve_stopped E fs g cholmod_solve WP Eg cholmod_total _ _ _ (iteration_cap (max_iterations cfg)) fuel init val (fun k val' => stopped_near fs cfg valz M _ _ val val' k) (solver_gn E cholmod_solve cfg)); auto.
    + destruct (solvers_terminate E g init cholmod_solve fuel) as (Hx & _). auto.
    + intros k s st S1 S2 S3 S4 S5 S6. apply (HG cfg Htol Hp k s st val); auto.
  - intros lambda Hl. destruct (HLm lambda Hl) as (kap & Pk & H). apply (Hex kap Pk). intros cfg C1 C2 C3 C4 Htol Hp fuel init val Hfu Hi Hd.
    apply (solve_stopped E fs g cholmod_solve WP Eg cholmod_total _ _ _ (iteration_cap (max_iterations (lm_term cfg))) fuel init val (fun k val' => stopped_near fs (lm_term cfg) valz M _ _ val val' k) (solver_lm E cholmod_solve cfg)); auto.
    + destruct (solvers_terminate E g init cholmod_solve fuel) as (_ & Hx & _). auto.
    + intros k s st S1 S2 S3 S4 S5 S6. apply (H cfg ltac:(lra) C2 C3 Htol Hp k s st val); auto. rewrite S2. lra.
  - intros radius Hr. destruct (HD radius Hr) as (kap & Pk & H). apply (Hex kap Pk). intros cfg C1 C2 Htol Hp fuel init val Hfu Hi Hd.
    apply (solve_stopped E fs g cholmod_solve WP Eg cholmod_total _ _ _ (iteration_cap (max_iterations (dl_term cfg))) fuel init val (fun k val' => stopped_near fs (dl_term cfg) valz M _ _ val val' k) (solver_dl E cholmod_solve cfg)); auto.
    + destruct (solvers_terminate E g init cholmod_solve fuel) as (_ & _ & Hx). auto.
    + intros k s st S1 S2 S3 S4 S5 S6. apply (H cfg ltac:(lra) Htol Hp k s st val); auto. rewrite S2. lra.
Qed.

(* from what the tests say to a wanted accuracy *)
Lemma wanted fs sigma M th D delta0 eps : 0 < sigma -> 0 < M -> 0 <= th < 1 -> 0 <= D -> 0 < delta0 -> 0 < eps ->
  exists delta N, 0 < delta /\ forall E valz cfg solve, stops_near E fs valz sigma M th D delta0 cfg solve -> accurate E fs valz sigma eps delta N cfg solve.
Proof.
  intros Ps PM Hth PD Pd Pe. assert (Pms : 0 < M * (sigma * sigma)) by (apply Rmult_lt_0_compat; auto; apply Rmult_lt_0_compat; auto). assert (Pee : 0 < eps * eps) by (apply Rmult_lt_0_compat; auto).
  destruct (pow_lt_1_zero th ltac:(rewrite Rabs_pos_eq; lra) (eps * eps / (M * (sigma * sigma))) ltac:(apply Rdiv_lt_0_compat; auto)) as (N & HN).
  set (delta := Rmin delta0 (Rmin 1 (eps / (2 * D + 1)))). assert (D1 : delta <= delta0) by apply Rmin_l. assert (D2 : delta <= 1) by (eapply Rle_trans; [apply Rmin_r | apply Rmin_l]). assert (D3 : delta <= eps / (2 * D + 1)) by (eapply Rle_trans; [apply Rmin_r | apply Rmin_r]).
  assert (D0 : 0 < delta) by (apply Rmin_pos; auto; apply Rmin_pos; [lra | apply Rdiv_lt_0_compat; lra]).
  exists delta, N. split; auto. intros E valz cfg solve H Htol Hp Hit fuel init val Hfu Hi Hd. destruct (H ltac:(lra) ltac:(lra) fuel init val Hfu Hi Hd) as (a' & val' & k & R1 & R2 & R3 & R4 & R5).
  exists a', val'. split; auto. split; auto.
  assert (Hsmall : (N <= k)%nat -> distance fs val' valz <= eps).
  { intros Hk. specialize (HN k Hk). assert (Htk : 0 <= th ^ k) by (apply pow_le; lra). rewrite Rabs_pos_eq in HN by auto. unfold distance. rewrite <- (sqrt_square eps) by lra. apply sqrt_le_1_alt.
    assert (Hv : distance2 fs val valz <= sigma * sigma). { destruct (Rle_lt_dec 0 (distance2 fs val valz)) as [H0|H0]; [|nra]. rewrite <- (sqrt_sqrt (distance2 fs val valz)) by auto. unfold distance in Hd. pose proof (sqrt_pos (distance2 fs val valz)). apply Rmult_le_compat; auto. }
    eapply Rle_trans; [exact R4|]. apply Rle_trans with (M * th ^ k * (sigma * sigma)); [apply Rmult_le_compat_l; auto; apply Rmult_le_pos; lra|].
    replace (M * th ^ k * (sigma * sigma)) with (th ^ k * (M * (sigma * sigma))) by ring. replace (eps * eps) with (eps * eps / (M * (sigma * sigma)) * (M * (sigma * sigma))) by (field; nra). apply Rmult_le_compat_r; lra. }
  destruct R5 as [R5|[R5|R5]]; [apply Hsmall; lia | apply Hsmall; lia|]. eapply Rle_trans; [exact R5|]. set (p := parameter_tolerance cfg) in *.
  assert (Hpp : p * (1 + p) <= 2 * delta) by nra. apply Rle_trans with (D * (2 * delta)); [apply Rmult_le_compat_l; auto|].
  apply (Rmult_le_compat_r (2 * D + 1)) in D3; [|lra]. replace (eps / (2 * D + 1) * (2 * D + 1)) with eps in D3 by (field; lra). nra.
Qed.

Lemma stop_accuracy : forall (E : env R) fs g z valz rho m K f L, exact_solution E fs g z valz rho m K f L ->
  forall q, q < 1 -> exists sigma, 0 < sigma /\ forall eps, 0 < eps ->
  (exists delta N, 0 < delta /\ forall cfg, accurate E fs valz sigma eps delta N cfg (fun fuel => gn_solve E fuel cfg cholmod_solve g)) /\
  (forall lambda, 0 <= lambda -> exists delta N, 0 < delta /\ forall cfg, 0 < lm_quality_min cfg <= q -> 1 <= lambda_factor cfg -> 0 <= lambda_min cfg -> 0 <= lambda_initial cfg <= lambda ->
     accurate E fs valz sigma eps delta N (lm_term cfg) (fun fuel => lm_solve E fuel cfg cholmod_solve g)) /\
  (forall radius, 0 < radius -> exists delta N, 0 < delta /\ forall cfg, 0 < dl_quality_min cfg <= q -> radius <= radius_initial cfg ->
     accurate E fs valz sigma eps delta N (dl_term cfg) (fun fuel => dl_solve E fuel cfg cholmod_solve g)).
Proof.
  intros E fs g z valz rho m K f L ES q Hq. destruct (stop_solves E fs g z valz rho m K f L ES q Hq) as (sigma & M & P1 & P2 & HG & HLm & HD). exists sigma. split; auto. intros eps Pe. split; [|split].
  - destruct HG as (th & D & d0 & T1 & T2 & T3 & H). destruct (wanted fs sigma M th D d0 eps P1 P2 T1 T2 T3 Pe) as (delta & N & Pd & Hw). exists delta, N. split; auto.
  - intros lambda Hl. destruct (HLm lambda Hl) as (th & D & d0 & T1 & T2 & T3 & H). destruct (wanted fs sigma M th D d0 eps P1 P2 T1 T2 T3 Pe) as (delta & N & Pd & Hw). exists delta, N. split; auto.
  - intros radius Hr. destruct (HD radius Hr) as (th & D & d0 & T1 & T2 & T3 & H). destruct (wanted fs sigma M th D d0 eps P1 P2 T1 T2 T3 Pe) as (delta & N & Pd & Hw). exists delta, N. split; auto.
Qed.
Lemma stop_programs : forall C prog fs g z valz, let E := plain_programs C prog in
  program_problem C prog fs -> graph_make E fs = Ok g -> assigns E fs z valz -> same_layout (as_layout z) (g_layout g) ->
  exact_fit prog fs valz -> determined_at E g z ->
  forall q, q < 1 -> exists sigma, 0 < sigma /\ forall eps, 0 < eps ->
  (exists delta N, 0 < delta /\ forall cfg, accurate E fs valz sigma eps delta N cfg (fun fuel => gn_solve E fuel cfg cholmod_solve g)) /\
  (forall lambda, 0 <= lambda -> exists delta N, 0 < delta /\ forall cfg, 0 < lm_quality_min cfg <= q -> 1 <= lambda_factor cfg -> 0 <= lambda_min cfg -> 0 <= lambda_initial cfg <= lambda ->
     accurate E fs valz sigma eps delta N (lm_term cfg) (fun fuel => lm_solve E fuel cfg cholmod_solve g)) /\
  (forall radius, 0 < radius -> exists delta N, 0 < delta /\ forall cfg, 0 < dl_quality_min cfg <= q -> radius <= radius_initial cfg ->
     accurate E fs valz sigma eps delta N (dl_term cfg) (fun fuel => dl_solve E fuel cfg cholmod_solve g)).
Proof.
  intros C prog fs g z valz E PP Eg Hza Hzl Hfit Hdet. destruct (trust_constants C prog fs g z valz PP Eg Hza Hzl Hfit Hdet) as (rho & m & K & f & L & ES). exact (stop_accuracy E fs g z valz rho m K f L ES).
Qed.

(* ---- one measurement of weight 1e-6 ---- *)
Definition gfaint : graph R := graph_of faint.
Lemma faint_only b val : assigns exSE faint b val -> same_layout (as_layout b) (g_layout gfaint) -> exists x, b = scalars [vx] [x].
Proof.
  intros Ha Hs. assert (Eg : graph_make exSE faint = Ok gfaint) by reflexivity. pose proof (lin_holds exSE faint gfaint faint_posed Eg b val Ha Hs) as Hh.
  assert (HP : plain_problem exSE faint) by (intros v [<-|[]]; split; reflexivity).
  pose proof (pl_held_length exSE faint HP exS_classes b val Hh) as Hl. destruct Hh as (vs & Hwf & Hsl & _). pose proof (holds_vars exSE faint vs b Hwf Hsl) as Hv.
  destruct Hwf as (ND & HL & _). change (length (as_storage b) = 1%nat) in Hl. destruct b as [st lay]. cbn [as_storage as_layout] in *.
  destruct st as [|x [|y st]]; try discriminate. exists x. unfold scalars. f_equal. rewrite HL. f_equal.
  destruct vs as [|v vs]; [exfalso; apply (proj2 (Hv vx)); left; auto|]. assert (v = vx) by (destruct (proj1 (Hv v) (or_introl eq_refl)) as [<-|[]]; auto). subst v.
  destruct vs as [|w vs]; auto. exfalso. destruct (proj1 (Hv w) (or_intror (or_introl eq_refl))) as [Hw|[]]. subst w. inversion ND as [|? ? Hn _]; subst. apply Hn. left. auto.
Qed.
Definition faint_jac : coo R := mkCoo [1 / 1000000] (mkCoords [0%nat] [0%nat]) (1%nat, 1%nat).
Lemma faint_value x : compute_cost exSE gfaint (scalars [vx] [x]) = Ok ((1 / 1000000 * (x - 1)) * (1 / 1000000 * (x - 1)), [1 / 1000000 * (x - 1)]).
Proof. comp. rewrite Rplus_0_r. reflexivity. Qed.
Lemma faint_jacobian x r : length r = 1%nat -> compute_whitened_residual_jacobian exSE gfaint (scalars [vx] [x]) r = Ok faint_jac.
Proof. destruct r as [|r1 [|]]; try discriminate. intros _. comp. unfold faint_jac. f_equal. f_equal. f_equal. unfold Rlit. field. Qed.
Lemma faint_times v : matmul faint_jac [v] = Ok [1 / 1000000 * v].
Proof. comp. do 2 f_equal. lra. Qed.
Lemma faint_long v (Av : list R) : matmul faint_jac v = Ok Av -> exists a, v = [a].
Proof. destruct v as [|a [|b v]]; [discriminate | eauto | discriminate]. Qed.
Lemma faint_solution : exact_solution exSE faint gfaint (scalars [vx] [1]) (const_of 1) 1 (1 / 1000000) 0 (1 / 1000000) 0.
Proof.
  assert (HP : plain_problem exSE faint) by (intros v [<-|[]]; split; reflexivity). split; [lra|]. split; [|split; [|split; [lra|split; [|split; [lra|]]]]].
  - split; auto. split; [exact faint_posed|]. split; [reflexivity|]. split; [apply faint_assigns|]. split; [repeat split|]. split; [|lra]. do 2 eexists. split; [apply faint_value|].
    intros b val c r A Ha Hs Ec EA e Hd. destruct (faint_only b val Ha Hs) as (x & ->). rewrite faint_value in Ec. injection Ec as <- <-. rewrite faint_jacobian in EA by auto. injection EA as <-. assert (He : e = [1 - x]) by reflexivity. rewrite He in *. split; [|split].
    + intros y Ay Hy H. destruct (faint_long _ _ H) as (a & ->). rewrite faint_times in H. injection H as <-. rewrite !sq_norm1. lra.
    + intros Ae H. rewrite faint_times in H. injection H as <-. replace (vsub (vadd [1 / 1000000 * (1 - x)] [1 / 1000000 * (x - 1)]) [1 / 1000000 * (1 - 1)]) with [0]; [rewrite norm1, Rabs_R0; lra|].
      unfold vsub, vadd, zipw. rn. cbn [map combine]. cbn. f_equal. lra.
    + intros v Av H. destruct (faint_long _ _ H) as (a & ->). rewrite faint_times in H. injection H as <-. rewrite vdot_cons, vdot_nil_l. lra.
  - eexists. rewrite faint_value. do 2 f_equal. lra.
  - intros b val c r A Ha Hs Ec EA Hd v Av H. destruct (faint_only b val Ha Hs) as (x & ->). rewrite faint_value in Ec. injection Ec as <- <-. rewrite faint_jacobian in EA by auto. injection EA as <-.
    destruct (faint_long _ _ H) as (a & ->). rewrite faint_times in H. injection H as <-. rewrite !sq_norm1. lra.
  - intros b val c r A b' val' c' r' Ha Hs Ec EA Ha' Hs' Ec' Hd Hd' d Ad H. destruct (faint_only b val Ha Hs) as (x & ->). destruct (faint_only b' val' Ha' Hs') as (x' & ->).
    rewrite faint_value in Ec, Ec'. injection Ec as <- <-. injection Ec' as <- <-. rewrite faint_jacobian in EA by auto. injection EA as <-. assert (He : d = [x' - x]) by reflexivity. rewrite He in *. rewrite faint_times in H. injection H as <-.
    replace (vsub [1 / 1000000 * (x' - 1)] (vadd [1 / 1000000 * (x' - x)] [1 / 1000000 * (x - 1)])) with [0]; [rewrite norm1, Rabs_R0; lra|].
    unfold vsub, vadd, zipw. rn. cbn [map combine]. cbn. f_equal. lra.
Qed.
Lemma faint_distance x y : distance faint (const_of x) (const_of y) = Rabs (y - x).
Proof. unfold distance, distance2. change (sqrt (vsum [sumsq [y - x]]) = Rabs (y - x)). rewrite <- (norm1 (y - x)). rewrite vsum_cons, vsum_nil, Rplus_0_r. reflexivity. Qed.
Definition cost_only : term_cfg R := mkTerm 100 (1 / 100000) 0 100 0.
Definition gradient_first : term_cfg R := mkTerm 100 0 (1 / 1000000000) 0 0.
Definition slow (e : R) : R := 10000000 / 10000001 * e.
Lemma slow_step e : 1 - e + (- (0 + 1 / 1000000 * 1 * (1 / 1000000 * (1 - e - 1))) - 0) / ((0 + 1 / 1000000 * 1) * (0 + 1 / 1000000 * 1) + 0 + (0 + Rlit 1 100000)) = 1 - slow e.
Proof. unfold slow, Rlit. field. Qed.
Lemma faint_gn_cost e : 0 < e -> gn_solve exSE 1 cost_only cholmod_solve gfaint (scalars [vx] [1 - e]) = Some (Ok (scalars [vx] [1 - slow e])).
Proof.
  intros He. assert (H : forall y, y = slow e -> Rltb (Rabs (1 / 1000000 * (1 - y - 1) * (1 / 1000000 * (1 - y - 1)) + 0 - (1 / 1000000 * (1 - e - 1) * (1 / 1000000 * (1 - e - 1)) + 0)) / (1 / 1000000 * (1 - e - 1) * (1 / 1000000 * (1 - e - 1)) + 0)) (1 / 100000) = true).
  { intros y ->. apply Rltb_ok. assert (Hee : 0 < e * e) by (apply Rmult_lt_0_compat; auto). unfold slow.
    replace (1 / 1000000 * (1 - 10000000 / 10000001 * e - 1) * (1 / 1000000 * (1 - 10000000 / 10000001 * e - 1)) + 0 - (1 / 1000000 * (1 - e - 1) * (1 / 1000000 * (1 - e - 1)) + 0)) with (- (e * e * (20000001 / (10000001 * 10000001 * (1000000 * 1000000))))) by field.
    rewrite Rabs_Ropp, Rabs_pos_eq by (apply Rmult_le_pos; lra). replace (1 / 1000000 * (1 - e - 1) * (1 / 1000000 * (1 - e - 1)) + 0) with (e * e * (/ (1000000 * 1000000))) by field.
    replace (e * e * (20000001 / (10000001 * 10000001 * (1000000 * 1000000))) / (e * e * / (1000000 * 1000000))) with (20000001 / (10000001 * 10000001)) by (field; lra). lra. }
  comp. rewrite slow_step. rewrite (H (slow e) eq_refl). reflexivity.
Qed.
Lemma faint_gn_grad e : 0 < e -> gn_solve exSE 1 gradient_first cholmod_solve gfaint (scalars [vx] [1 - e]) = Some (Ok (scalars [vx] [1 - slow e])).
Proof.
  intros He. comp. rewrite slow_step. match goal with |- context [Rltb ?a 0] => assert (H : Rltb a 0 = false) end.
  { apply Rltb_no. apply Rmult_le_pos; [apply Rabs_pos|]. left. apply Rinv_0_lt_compat. assert (Hee : 0 < e * e) by (apply Rmult_lt_0_compat; auto). lra. }
  rewrite H. match goal with |- context [Rltb ?a (1 / 1000000000)] => assert (H1 : Rltb a (1 / 1000000000) = true) end.
  { apply Rltb_ok. lra. }
  rewrite H1. reflexivity.
Qed.
Lemma slow_small e : 0 < e -> 999 / 1000 * e <= slow e. Proof. unfold slow. lra. Qed.

Definition stops_early (cfg : term_cfg R) (q : R) : Prop := exists (E : env R) fs g z valz rho m K f L, exact_solution E fs g z valz rho m K f L /\
  forall sigma, 0 < sigma -> exists init val a' val', assigns E fs init val /\ 0 < distance fs val valz <= sigma /\
  gn_solve E 1 cfg cholmod_solve g init = Some (Ok a') /\ assigns E fs a' val' /\ q * distance fs val valz <= distance fs val' valz.
Lemma early cfg : (forall e, 0 < e -> gn_solve exSE 1 cfg cholmod_solve gfaint (scalars [vx] [1 - e]) = Some (Ok (scalars [vx] [1 - slow e]))) -> stops_early cfg (999 / 1000).
Proof.
  intros H. exists exSE, faint, gfaint, (scalars [vx] [1]), (const_of 1), 1, (1 / 1000000), 0, (1 / 1000000), 0. split; [exact faint_solution|]. intros sigma Hs.
  exists (scalars [vx] [1 - sigma]), (const_of (1 - sigma)), (scalars [vx] [1 - slow sigma]), (const_of (1 - slow sigma)). split; [apply faint_assigns|]. rewrite !faint_distance. pose proof (slow_small sigma Hs) as Hsl.
  replace (1 - (1 - sigma)) with sigma by ring. replace (1 - (1 - slow sigma)) with (slow sigma) by ring. rewrite !Rabs_pos_eq by lra. split; [lra|]. split; [auto|]. split; [apply faint_assigns | auto].
Qed.
Lemma stop_cost_refuted : exists cfg : term_cfg R, max_iterations cfg = 100%Z /\ gradient_start cfg = 100%Z /\ parameter_tolerance cfg = 0 /\ cost_tolerance cfg = cost_tolerance (term_default (T := R) 100) /\
  exists (E : env R) fs g z valz rho m K f L, exact_solution E fs g z valz rho m K f L /\
  forall sigma, 0 < sigma -> exists init val a' val', assigns E fs init val /\ 0 < distance fs val valz <= sigma /\
  gn_solve E 1 cfg cholmod_solve g init = Some (Ok a') /\ assigns E fs a' val' /\ 999 / 1000 * distance fs val valz <= distance fs val' valz.
Proof. exists cost_only. do 4 (split; [reflexivity|]). apply (early cost_only faint_gn_cost). Qed.
Lemma stop_gradient_refuted : exists cfg : term_cfg R, max_iterations cfg = 100%Z /\ parameter_tolerance cfg = 0 /\ cost_tolerance cfg = 0 /\ gradient_tolerance cfg = 1 / 1000000000 /\
  exists (E : env R) fs g z valz rho m K f L, exact_solution E fs g z valz rho m K f L /\
  forall sigma, 0 < sigma -> exists init val a' val', assigns E fs init val /\ 0 < distance fs val valz <= sigma /\
  gn_solve E 1 cfg cholmod_solve g init = Some (Ok a') /\ assigns E fs a' val' /\ 999 / 1000 * distance fs val valz <= distance fs val' valz.
Proof. exists gradient_first. do 4 (split; [reflexivity|]). apply (early gradient_first faint_gn_grad). Qed.

Lemma stop_example : exists g z valz rho m K f L, exact_solution (plain_programs plane range_prog) two_ranges g z valz rho m K f L.
Proof. exact trust_example. Qed.
