(* Bundled statements and concrete instances: the values of least loss under Huber noise. *)
From Coq Require Import List Arith Bool ZArith Lia Permutation Reals Lra Psatz.
From Verif Require Import Num NumR Py Arr MLayout MAssign MNoise MSparse MFactor MGraph MLinear MSolver SpecLayout SpecTree SpecAssign SpecGraph SpecSparse SpecDeriv SpecNoise SpecSolver SpecOrder SpecInv SpecLin SpecCgLin SpecLoss SpecTrCg SpecLocal SpecHalt SpecRobust.
From Verif Require Import PBase PLayout PTree PVec PSparse PAssign PAssign2 PGraph PGraph2 PHold PExGraph PSolver PSolver2 PSolverR PDescent PLinear PInv PTotal PCg PLin PLinDl PLinCg PLocal PNear PLinTr PHalt PRobust PRobust2 PRobust3 PRobust4 PRobust5 PRobust6 PRobust7 Ex ExG ExS PExInv PExSolver PExOrder PExSym PExTwin PExLoss PExLin PExLinCg PExLinDl PExLocal PExSuper PExNear PExLinTr PExHalt PExPart PExRobust.
Import ListNotations.
Local Open Scope R_scope.

Lemma fit_exists : forall (E : env R) fs g, robust_problem E fs -> well_posed E fs -> graph_make E fs = Ok g ->
  exists z valz, assigns E fs z valz /\ same_layout (as_layout z) (g_layout g) /\ least_loss E fs valz.
Proof.
  intros E fs g RP WP Eg. destruct (start_exists E fs g WP Eg) as (s & val & A & Hf & Hh & _). destruct (iterates_limit E fs g RP WP Eg (total_loss E fs val)) as (q & K & _ & _ & H).
  destruct (H (fixed_step E 1 cholmod_solve g) ltac:(right; eauto) s val) as (z & valz & H1 & H2 & H3 & _); [apply (fresh_at E fs g WP Eg); auto | lra|]. eauto.
Qed.
Lemma fit_one : forall (E : env R) fs z valz y valy, robust_problem E fs -> well_posed E fs ->
  assigns E fs z valz -> assigns E fs y valy -> least_loss E fs valz -> least_loss E fs valy ->
  forall f, In f fs -> whitened_at E valz f = whitened_at E valy f.
Proof. intros E fs z valz y valy RP WP Hz Hy Lz Ly f Hf. destruct (never_raises E fs WP) as (g & Eg & _). apply (same_fit E fs g RP WP Eg z valz y valy f); auto. Qed.
Lemma fit_iterations : forall (E : env R) fs g, robust_problem E fs -> well_posed E fs -> graph_make E fs = Ok g ->
  forall level, exists q K, 0 <= q < 1 /\ 0 <= K /\
  forall step, gauss_newton_iteration E g cholmod_solve step -> forall s val, at_values E fs g s val -> total_loss E fs val <= level ->
  exists z valz, assigns E fs z valz /\ least_loss E fs valz /\
    forall k s', iterate k step s = Ok s' -> exists val', at_values E fs g s' val' /\ distance fs val' valz <= K * sqrt (total_loss E fs val - total_loss E fs valz) * q ^ k.
Proof.
  intros E fs g RP WP Eg level. destruct (iterates_limit E fs g RP WP Eg level) as (q & K & Hq & HK & H). exists q, K. do 2 (split; auto). intros step Hst s val Hs Hl. destruct (H step Hst s val Hs Hl) as (z & valz & H1 & _ & H2 & H3). exists z, valz. auto.
Qed.
Lemma fit_solves : forall (E : env R) fs g, robust_problem E fs -> well_posed E fs -> graph_make E fs = Ok g ->
  forall level, exists q K, 0 <= q < 1 /\ 0 <= K /\
  forall init val, assigns E fs init val -> total_loss E fs val <= level ->
  (forall cfg fuel, (iteration_cap (max_iterations cfg) <= fuel)%nat ->
     exists a' k val' z valz, gn_solve E fuel cfg cholmod_solve g init = Some (Ok a') /\ (1 <= k <= iteration_cap (max_iterations cfg))%nat /\ assigns E fs a' val' /\
       assigns E fs z valz /\ least_loss E fs valz /\ distance fs val' valz <= K * sqrt (total_loss E fs val - total_loss E fs valz) * q ^ k) /\
  (same_layout (as_layout init) (g_layout g) -> forall it fuel unroll, (1 <= it)%Z -> (Z.to_nat it <= fuel)%nat ->
     exists a' val' z valz, fixed_solve E fuel unroll it cholmod_solve g init = Some (Ok a') /\ assigns E fs a' val' /\
       assigns E fs z valz /\ least_loss E fs valz /\ distance fs val' valz <= K * sqrt (total_loss E fs val - total_loss E fs valz) * q ^ Z.to_nat it).
Proof.
  intros E fs g RP WP Eg level. destruct (fit_iterations E fs g RP WP Eg level) as (q & K & Hq & HK & H). exists q, K. do 2 (split; auto). intros init val Hi Hl. split.
  - intros cfg fuel Hfu. destruct (solve_values E fs g WP Eg cholmod_solve cholmod_total init val Hi (fun k v' => exists z valz, assigns E fs z valz /\ least_loss E fs valz /\ distance fs v' valz <= K * sqrt (total_loss E fs val - total_loss E fs valz) * q ^ k) _ _ _ (iteration_cap (max_iterations cfg)) fuel (solver_gn E cholmod_solve cfg)) as (a' & k & v' & H1 & H2 & H3 & z & valz & H4 & H5 & H6); [| |exists a', k, v', z, valz; auto 10].
    + destruct (solvers_terminate E g init cholmod_solve fuel) as (Hx & _). auto.
    + intros s k st Ha _ Hit. destruct (H (gn_step E cfg cholmod_solve g) ltac:(left; eauto) s val Ha Hl) as (z & valz & Z1 & Z2 & Z3). destruct (Z3 k st Hit) as (v' & V1 & V2). exists v'. split; auto. exists z, valz. auto.
  - intros Hlay it fuel unroll Hit Hfu. destruct (fixed_values E fs g WP Eg cholmod_solve cholmod_total init val Hi (fun k v' => exists z valz, assigns E fs z valz /\ least_loss E fs valz /\ distance fs v' valz <= K * sqrt (total_loss E fs val - total_loss E fs valz) * q ^ k) fuel unroll it Hlay Hit Hfu) as (a' & v' & H1 & H2 & z & valz & H4 & H5 & H6); [|exists a', v', z, valz; auto 10].
    intros s st Ha _ Hs. destruct (H (fixed_step E it cholmod_solve g) ltac:(right; eauto) s val Ha Hl) as (z & valz & Z1 & Z2 & Z3). destruct (Z3 _ st Hs) as (v' & V1 & V2). exists v'. split; auto. exists z, valz. auto.
Qed.
Lemma fit_unique : forall (E : env R) fs g s0 v0 A0 sigma0, robust_problem E fs -> well_posed E fs -> graph_make E fs = Ok g ->
  at_values E fs g s0 v0 -> compute_whitened_residual_jacobian E g (s_assign s0) (s_res s0) = Ok A0 -> 0 < sigma0 -> SpecCgLin.bounded_below sigma0 A0 ->
  (forall z valz y valy, assigns E fs z valz -> assigns E fs y valy -> least_loss E fs valz -> least_loss E fs valy -> distance fs valy valz = 0) /\
  forall level, exists K, 0 <= K /\ forall z valz y valy, assigns E fs z valz -> assigns E fs y valy -> least_loss E fs valz -> total_loss E fs valy <= level ->
    distance2 fs valy valz <= K * (total_loss E fs valy - total_loss E fs valz).
Proof.
  intros E fs g s0 v0 A0 sigma0 RP WP Eg H0 EA Hs Hb. split.
  - intros z valz y valy Hz Hy Lz Ly. destruct (full_rank_close E fs g RP WP Eg sigma0 s0 v0 A0 (total_loss E fs valy) H0 EA Hs Hb) as (K & HK & H). specialize (H z valz y valy Hz Hy Lz (Rle_refl _)).
    pose proof (Ly z valz Hz). pose proof (Lz y valy Hy). replace (total_loss E fs valy - total_loss E fs valz) with 0 in H by lra. rewrite Rmult_0_r in H. unfold distance. apply sqrt_neg_0; auto.
  - intros level. apply (full_rank_close E fs g RP WP Eg sigma0 s0 v0 A0 level H0 EA Hs Hb).
Qed.

(* ---- one scalar pulled by two measurements, both beyond the threshold ---- *)
Lemma tug_state : at_values exSE tug gtug (mkState 0 (scalars [vx] [0]) 272 [4; -16] false 0) (fun _ => leaf1 [0]).
Proof. split; [apply tug_assigns|]. split; [repeat split; reflexivity | exact tug_cost]. Qed.
Lemma tug_rank A : A = mkCoo [1; / 4] (mkCoords [0%nat; 1%nat] [0%nat; 0%nat]) (2%nat, 1%nat) -> SpecCgLin.bounded_below 1 A.
Proof.
  intros -> y Ay Hy H. cbn in Hy. destruct y as [|a [|]]; try discriminate Hy. assert (HA : Ay = [a; a / 4]). { revert H. comp. intros H. injection H as <-. f_equal; [|f_equal]; lra. }
  rewrite HA. rewrite !sumsq_cons. cbn. nra.
Qed.
Lemma tug_least : least_loss exSE tug (fun _ => leaf1 [0]).
Proof.
  destruct (tug_zero 0 0) as (A & EA & HT & _). apply (proj1 (robust_rest exSE tug gtug _ _ [0] (pulls_robust 2 (-8) 1 256) (pulls_posed 2 (-8) 1 256) eq_refl tug_state (ex_intro _ A (conj EA HT)))). reflexivity.
Qed.
Lemma fit_example : exists (E : env R) fs g s0 v0 A0 sigma0, robust_problem E fs /\ well_posed E fs /\ graph_make E fs = Ok g /\
  at_values E fs g s0 v0 /\ compute_whitened_residual_jacobian E g (s_assign s0) (s_res s0) = Ok A0 /\ 0 < sigma0 /\ SpecCgLin.bounded_below sigma0 A0 /\
  (forall f, In f fs -> exists w d, f_noise f = Huber w d) /\ least_loss E fs v0 /\ 0 < total_loss E fs v0.
Proof.
  destruct tug_jacobian as (A & EA & HA). exists exSE, tug, gtug, (mkState 0 (scalars [vx] [0]) 272 [4; -16] false 0), (fun _ => leaf1 [0]), A, 1.
  split; [apply (pulls_robust 2 (-8) 1 256)|]. split; [apply (pulls_posed 2 (-8) 1 256)|]. split; [reflexivity|]. split; [exact tug_state|]. split; [exact EA|]. split; [lra|]. split; [apply tug_rank; auto|].
  split; [intros f [<-|[<-|[]]]; do 2 eexists; reflexivity|]. split; [exact tug_least|].
  assert (H1 : followed_loss (f_noise (pull 2 (-8))) (residual_at exSE (fun _ => leaf1 [0]) (pull 2 (-8))) = quarter_loss 1 16).
  { comp. rewrite (PExLoss.root (2 * (0 - -8)) 16) by lra. reflexivity. }
  assert (H2 : followed_loss (f_noise (pull 1 256)) (residual_at exSE (fun _ => leaf1 [0]) (pull 1 256)) = quarter_loss 1 256).
  { comp. rewrite (PExLoss.root (1 * (0 - 256)) 256) by lra. reflexivity. }
  unfold total_loss, tug. cbn [map]. rewrite H1, H2. match goal with |- 0 < vsum [?a; ?b] => change (0 < a + (b + 0)) end.
  assert (H3 : forall n, 1 <= n -> 1 / 2 <= quarter_loss 1 n).
  { intros n Hn. destruct (fourth 1 n ltac:(lra) Hn) as (u & Hu & Eu & En & _). rewrite (loss_outer 1 n u) by (auto; lra). assert (1 <= u * u * u * u * u) by (assert (1 <= u * u) by nra; nra). lra. }
  pose proof (H3 16 ltac:(lra)). pose proof (H3 256 ltac:(lra)). lra.
Qed.
Lemma fit_not_cost : exists (E : env R) fs g z valz y valy c c' r r', robust_problem E fs /\ well_posed E fs /\ graph_make E fs = Ok g /\
  assigns E fs z valz /\ assigns E fs y valy /\ least_loss E fs valz /\
  (forall z' valz', assigns E fs z' valz' -> least_loss E fs valz' -> distance fs valz' valz = 0) /\
  compute_cost E g z = Ok (c, r) /\ compute_cost E g y = Ok (c', r') /\ c' < c.
Proof.
  destruct tug_better as (c' & r' & Ec' & Hc'). destruct tug_jacobian as (A & EA & HA).
  exists exSE, tug, gtug, (scalars [vx] [0]), (fun _ => leaf1 [0]), (scalars [vx] [-8]), (fun _ => leaf1 [-8]), 272, c', [4; -16], r'.
  split; [apply (pulls_robust 2 (-8) 1 256)|]. split; [apply (pulls_posed 2 (-8) 1 256)|]. split; [reflexivity|]. split; [apply tug_assigns|]. split; [apply tug_assigns|]. split; [exact tug_least|]. split; [|split; [exact tug_cost | auto]].
  intros z' valz' Hz' Hl'. destruct (fit_unique exSE tug gtug _ _ A 1 (pulls_robust 2 (-8) 1 256) (pulls_posed 2 (-8) 1 256) eq_refl tug_state EA ltac:(lra) (tug_rank A HA)) as (HU & _).
  apply (HU (scalars [vx] [0]) _ z' valz'); auto; [apply tug_assigns | exact tug_least].
Qed.
(* ---- far away the loss grows more slowly than the squared distance ---- *)
Lemma pulls_loss x : 0 <= x -> total_loss exSE (pulls 1 0 1 0) (fun _ => leaf1 [x]) = 2 * quarter_loss 1 x.
Proof.
  intros Hx. assert (H1 : followed_loss (f_noise (pull 1 0)) (residual_at exSE (fun _ => leaf1 [x]) (pull 1 0)) = quarter_loss 1 x).
  { comp. rewrite (PExLoss.root (1 * (x - 0)) x) by lra. reflexivity. }
  unfold total_loss, pulls. cbn [map]. rewrite H1. match goal with |- vsum [?a; ?b] = _ => change (a + (b + 0) = 2 * quarter_loss 1 x) end. lra.
Qed.
Lemma fit_not_uniform : exists (E : env R) fs g s0 v0 A0, robust_problem E fs /\ well_posed E fs /\ graph_make E fs = Ok g /\
  at_values E fs g s0 v0 /\ compute_whitened_residual_jacobian E g (s_assign s0) (s_res s0) = Ok A0 /\ SpecCgLin.bounded_below 1 A0 /\
  least_loss E fs v0 /\ forall K, exists y valy, assigns E fs y valy /\ K * (total_loss E fs valy - total_loss E fs v0) < distance2 fs valy v0.
Proof.
  assert (Er : compute_whitened_residual_vector exSE (graph_of (pulls 1 0 1 0)) (scalars [vx] [0]) = Ok [0; 0]).
  { comp. rewrite (PExLoss.root (1 * (0 - 0)) 0) by lra. rewrite (proj2 (Rltb_ok 0 1)) by lra. cbn. do 3 f_equal; [|f_equal]; lra. }
  assert (EA : compute_whitened_residual_jacobian exSE (graph_of (pulls 1 0 1 0)) (scalars [vx] [0]) [0; 0] = Ok (mkCoo [1; 1] (mkCoords [0%nat; 1%nat] [0%nat; 0%nat]) (2%nat, 1%nat))).
  { comp. rewrite (PExLoss.root 0 0) by lra. rewrite (proj2 (Rltb_ok 0 1)) by lra. cbn. repeat f_equal; lra. }
  assert (E0 : compute_cost exSE (graph_of (pulls 1 0 1 0)) (scalars [vx] [0]) = Ok (0, [0; 0])). { unfold compute_cost. rewrite Er. cbn [bind]. do 2 f_equal. comp. lra. }
  exists exSE, (pulls 1 0 1 0), (graph_of (pulls 1 0 1 0)), (mkState 0 (scalars [vx] [0]) 0 [0; 0] false 0), (fun _ => leaf1 [0]). eexists.
  split; [apply pulls_robust|]. split; [apply pulls_posed|]. split; [reflexivity|]. split; [split; [apply pulls_assigns | split; [repeat split; reflexivity | exact E0]]|]. split; [exact EA|].
  split. { intros y Ay Hy H. cbn in Hy. destruct y as [|a [|]]; try discriminate Hy. assert (HA : Ay = [a; a]). { revert H. comp. intros H. injection H as <-. f_equal; [|f_equal]; lra. } rewrite HA. rewrite !sumsq_cons. cbn. nra. }
  assert (Hz : total_loss exSE (pulls 1 0 1 0) (fun _ => leaf1 [0]) = 0) by (rewrite pulls_loss, loss_inner by lra; lra).
  split. { intros z valz Hzz. rewrite Hz. apply (loss_nonneg exSE (pulls 1 0 1 0) (pulls_robust _ _ _ _) (pulls_posed _ _ _ _)). apply (assigned_legal exSE (pulls 1 0 1 0) (graph_of (pulls 1 0 1 0)) (pulls_posed _ _ _ _) eq_refl z valz Hzz). }
  intros K. set (u := 2 + 2 * Rabs K). assert (Hu : 2 <= u /\ 2 * K <= u) by (unfold u; pose proof (Rabs_pos K); pose proof (Rle_abs K); lra). set (n := u * u * (u * u)).
  assert (Hn : 1 <= n) by (unfold n; assert (4 <= u * u) by nra; nra).
  exists (scalars [vx] [n]), (fun _ => leaf1 [n]). split; [apply pulls_assigns|]. rewrite Hz, pulls_loss by lra.
  assert (Es : sqrt (sqrt (n / 1)) = u). { unfold n, Rdiv. rewrite Rinv_1, Rmult_1_r. rewrite sqrt_square by nra. apply sqrt_square. lra. }
  rewrite (loss_outer 1 n u) by (auto; try lra; unfold n; ring).
  assert (Hd : distance2 (pulls 1 0 1 0) (fun _ => leaf1 [n]) (fun _ => leaf1 [0]) = n * n). { unfold distance2. comp. ring. }
  rewrite Hd. assert (Hu3 : 2 * K < u * u * u) by (assert (4 <= u * u) by nra; assert (u * 4 <= u * u * u) by nra; lra).
  set (w := u * u * u * u * u). assert (Hw : 32 <= w) by (unfold w; assert (4 <= u * u) by nra; assert (16 <= u * u * (u * u)) by nra; nra).
  replace (n * n) with (u * u * u * w) by (unfold n, w; ring). set (l := 2 * (1 * 1 * (4 / 5 * w - 3 / 10)) - 0). assert (Hl : 0 <= l <= 2 * w) by (unfold l; lra).
  assert (Hp : 0 < u * u * u * w) by (apply Rmult_lt_0_compat; [assert (4 <= u * u) by nra; nra | lra]).
  destruct (Rle_dec K 0) as [Hk|Hk]; [assert (K * l <= 0) by nra; lra|]. apply Rle_lt_trans with (2 * K * w); [|apply Rmult_lt_compat_r; lra]. apply Rle_trans with (K * (2 * w)); [apply Rmult_le_compat_l; lra | lra].
Qed.
