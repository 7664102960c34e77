(* Bundled lemmas and concrete instances about the loss the solvers follow. *)
From Coq Require Import List Arith Bool Lia ZArith Permutation Reals Lra.
From Verif Require Import Num NumR Py Arr MLayout MAssign MNoise MSparse MFactor MGraph MLinear MSolver.
From Verif Require Import SpecLayout SpecTree SpecAssign SpecGraph SpecSparse SpecDeriv SpecNoise SpecSolver SpecOrder SpecInv SpecLoss.
From Verif Require Import PBase PVec PGraph PGraph2 PDeriv PNoise PSolver PSolverR PLoss PExGraph PExSolver Ex ExG ExS PExSym PExLin.
Import ListNotations.
Local Open Scope R_scope.

Lemma quarter_shape delta : 0 < delta ->
  (forall n, n <= delta -> quarter_loss delta n = huber_loss delta n / 2) /\
  (forall n, delta < n -> huber_loss delta n / 2 < quarter_loss delta n < n * n / 2).
Proof.
  intros Hd. split.
  - intros n Hn. unfold quarter_loss, huber_loss. destruct (Rlt_dec n delta); auto. assert (n = delta) as -> by lra. rewrite <- join by auto. lra.
  - intros n Hn. unfold quarter_loss, huber_loss. destruct (Rlt_dec n delta); [lra|].
    set (u := sqrt (sqrt (n / delta))).
    assert (Hq : 1 < n / delta) by (apply (Rmult_lt_reg_r delta); [lra|]; field_simplify; lra).
    assert (Hs : 1 < sqrt (n / delta)) by (rewrite <- sqrt_1; apply sqrt_lt_1_alt; lra).
    assert (Hu : 1 < u) by (unfold u; rewrite <- sqrt_1; apply sqrt_lt_1_alt; lra).
    assert (H4 : n = delta * (u * u * (u * u))).
    { unfold u. rewrite sqrt_sqrt by lra. rewrite sqrt_sqrt by lra. field. lra. }
    clearbody u. set (v := u - 1). assert (Hv : 0 < v) by (unfold v; lra). replace u with (1 + v) in * by (unfold v; lra). clearbody v.
    assert (Hpow : 0 < v * v /\ 0 < v * v * v /\ 0 < v * v * v * v /\ 0 < v * v * v * v * v /\ 0 < v * v * v * v * v * v /\ 0 < v * v * v * v * v * v * v /\ 0 < v * v * v * v * v * v * v * v).
    { repeat split; repeat apply Rmult_lt_0_compat; auto. }
    assert (Hdd : 0 < delta * delta) by nra. rewrite H4. split.
    + match goal with |- ?a < ?b => assert (H : 0 < b - a); [|lra] end.
      match goal with |- 0 < ?e => replace e with (delta * delta * (4 / 5 * (1 + v) * ((1+v)*(1+v)*((1+v)*(1+v))) - (1+v)*(1+v)*((1+v)*(1+v)) + 1 / 5)) by field end.
      apply Rmult_lt_0_compat; auto. ring_simplify. lra.
    + match goal with |- ?a < ?b => assert (H : 0 < b - a); [|lra] end.
      match goal with |- 0 < ?e => replace e with (delta * delta * (/ 2 * ((1+v)*(1+v)*((1+v)*(1+v)) * ((1+v)*(1+v)*((1+v)*(1+v)))) - 4 / 5 * (1 + v) * ((1+v)*(1+v)*((1+v)*(1+v))) + 3 / 10)) by field end.
      apply Rmult_lt_0_compat; auto. ring_simplify. lra.
Qed.

Lemma followed_gradient E fs g a vs val x (valt : R -> var -> pytree R) :
  classes_ok (e_cls E) -> (forall f, In f fs -> factor_ok f) -> graph_make E fs = Ok g ->
  wf_assign (e_cls E) vs false a -> (forall t, of_type t vs = of_type t (mentioned fs)) ->
  (forall v, In v vs -> get_value (e_cls E) a v = Ok (val v)) ->
  (forall f, In f fs -> jacobian_shape_ok E val f) -> (forall f, In f fs -> robust_noise (f_noise f)) ->
  total residual_dim fs <> 0%nat -> length x = l_dim (g_local_layout g) ->
  (forall t v, In v vs -> retract (e_cls E (v_ty v)) (val v) (vscale t (block (e_cls E) (g_local_layout g) x v)) = Ok (valt t v) /\
     value_ok (e_cls E (v_ty v)) (valt t v)) ->
  (forall v, In v vs -> valt 0 v = val v) ->
  (forall f, In f fs -> vderiv (fun t => residual_at E (valt t) f)
     (slots_times (e_cls E) (g_local_layout g) x (residual_dim f) (f_vars f) (jacobians_at E val f))) ->
  exists r A grad, compute_whitened_residual_vector E g a = Ok r /\ compute_whitened_residual_jacobian E g a r = Ok A /\
    matmul (transpose A) r = Ok grad /\ length grad = l_dim (g_local_layout g) /\
    (forall t, exists a', manifold_retract (e_cls E) a (mkAssign (vscale t x) (g_local_layout g)) = Ok a' /\ assigns E fs a' (valt t)) /\
    derivable_pt_lim (fun t => total_loss E fs (valt t)) 0 (vdot grad x).
Proof.
  intros CO Hok Hm. destruct (made E fs g Hok Hm) as (Hg & Hne). rewrite (ig_local _ _ _ Hg).
  intros. apply (loss_gradient E fs g a vs val x valt); auto.
Qed.

(* ---- two Huber factors pulling on one scalar ---- *)
Definition pull (s z : R) : factor R := mkFactor 21 [vx] (Huber (DiagGaussian (mkArr [1%nat] [s])) (scal 1)) [leaf1 [z]].
Definition tug : list (factor R) := [pull 2 (-8); pull 1 256].
Definition gtug : graph R := graph_of tug.

Lemma root x y : 0 <= y -> x * x = y * y -> sqrt (x * x + 0) = y.
Proof. intros Hy H. rewrite Rplus_0_r, H. apply sqrt_square. auto. Qed.
Lemma far a b : b <= a -> Rltb a b = false.
Proof. apply Rltb_no. Qed.
Lemma tug_residual : compute_whitened_residual_vector exSE gtug (scalars [vx] [0]) = Ok [4; -16].
Proof.
  comp. rewrite (root (2 * (0 - -8)) 16), (root (1 * (0 - 256)) 256) by lra. rewrite !far by lra. cbn.
  replace (sqrt (1 / 16)) with (/ 4) by (symmetry; apply sqrt_lem_1; lra). replace (sqrt (1 / 256)) with (/ 16) by (symmetry; apply sqrt_lem_1; lra).
  do 3 f_equal; [|f_equal]; lra.
Qed.
Lemma tug_jacobian : exists A, compute_whitened_residual_jacobian exSE gtug (scalars [vx] [0]) [4; -16] = Ok A /\
  A = mkCoo [1; / 4] (mkCoords [0%nat; 1%nat] [0%nat; 0%nat]) (2%nat, 1%nat).
Proof.
  eexists. split; [reflexivity|]. comp. rewrite (root 4 4), (root (-16) 16) by lra. rewrite !far by lra. cbn.
  replace (sqrt (1 / 4)) with (/ 2) by (symmetry; apply sqrt_lem_1; lra). replace (sqrt (1 / 16)) with (/ 4) by (symmetry; apply sqrt_lem_1; lra).
  f_equal. f_equal; [|f_equal]; lra.
Qed.
Lemma tug_zero lam i : exists A, compute_whitened_residual_jacobian exSE gtug (scalars [vx] [0]) [4; -16] = Ok A /\
  matmul (transpose A) [4; -16] = Ok [0] /\ 
  (0 <= lam -> cholmod_solve A [0] lam i = Ok [0]) /\ (0 <= lam -> cholmod_solve A (vneg [0]) lam i = Ok [0]).
Proof.
  destruct tug_jacobian as (A & EA & ->). eexists. split; [exact EA|]. split; [|split; intros Hl].
  - comp. do 2 f_equal. lra.
  - comp. do 2 f_equal. unfold Rlit. field. lra.
  - comp. do 2 f_equal. unfold Rlit. field. lra.
Qed.
Lemma tug_cost : compute_cost exSE gtug (scalars [vx] [0]) = Ok (272, [4; -16]).
Proof. unfold compute_cost. rewrite tug_residual. cbn [bind]. do 2 f_equal. comp. lra. Qed.
Lemma tug_stay : manifold_retract (e_cls exSE) (scalars [vx] [0]) (mkAssign [0] (g_local_layout gtug)) = Ok (scalars [vx] [0]).
Proof. comp. do 3 f_equal. lra. Qed.
Lemma tug_update i d e : gn_update exSE cholmod_solve gtug (mkState i (scalars [vx] [0]) 272 [4; -16] d e) =
  Ok (vneg [0], mkAssign [0] (g_local_layout gtug), scalars [vx] [0]).
Proof.
  unfold gn_update. cbn [s_assign s_res s_iter]. destruct (tug_zero 0 i) as (A & EA & HT & _ & HS).
  rewrite EA. cbn [bind]. rewrite HT. cbn [bind]. change n0 with 0. rewrite HS by lra. cbn [bind]. rewrite tug_stay. reflexivity.
Qed.
Lemma tug_layout : update_storage_layout (e_cls exSE) (scalars [vx] [0]) (g_layout gtug) = Ok (scalars [vx] [0]).
Proof. comp. reflexivity. Qed.
Lemma tug_done (cfg : term_cfg R) : 0 < cost_tolerance cfg ->
  exists s, gn_step exSE cfg cholmod_solve gtug (mkState 0 (scalars [vx] [0]) 272 [4; -16] false 0) = Ok s /\ s_assign s = scalars [vx] [0] /\ s_done s = true.
Proof.
  intros Ht. unfold gn_step. rewrite tug_update. cbn [bind]. rewrite tug_cost. cbn [bind fst snd].
  assert (Hc : check_convergence exSE cfg (mkState 0 (scalars [vx] [0]) 272 [4; -16] false 0) 272 (mkAssign [0] (g_local_layout gtug)) (vneg [0]) = Ok true).
  { unfold check_convergence. assert (Hg : exists b, converged_gradient exSE cfg (mkState 0 (scalars [vx] [0]) 272 [4; -16] false 0) (mkAssign [0] (g_local_layout gtug)) (vneg [0]) = Ok b).
    { eexists. unfold converged_gradient. cbn [s_assign as_layout]. 
      assert (Hv : vneg [0] = [0]) by (unfold vneg; cbn; f_equal; lra). rewrite Hv, tug_stay. cbn [bind]. cbn [scalars as_storage vsub zipw]. reflexivity. }
    destruct Hg as (b & ->). cbn [bind]. f_equal.
    assert (Hcc : converged_cost cfg (mkState 0 (scalars [vx] [0]) 272 [4; -16] false 0) 272 = true).
    { unfold converged_cost. cbn [s_cost]. apply Rltb_ok. rn. replace (272 - 272) with 0 by lra. rewrite Rabs_R0. lra. }
    rewrite Hcc. auto. }
  rewrite Hc. cbn [bind]. eexists. split; [reflexivity|]. cbn [s_assign s_done]. split; auto. apply orb_true_r.
Qed.
Lemma tug_gn fuel (cfg : term_cfg R) : 0 < cost_tolerance cfg -> (1 <= fuel)%nat ->
  gn_solve exSE fuel cfg cholmod_solve gtug (scalars [vx] [0]) = Some (Ok (scalars [vx] [0])).
Proof.
  intros Ht Hf. destruct fuel as [|fuel]; [lia|]. unfold gn_solve, solve_with. rewrite tug_layout. unfold init_state. rewrite tug_cost. cbn [bind fst snd].
  destruct (tug_done cfg Ht) as (s & Es & Ha & Hd). cbn [while_loop s_done negb]. change n0 with 0. rewrite Es.
  assert (Hw : while_loop fuel (fun s0 : sstate R => negb (s_done s0)) (gn_step exSE cfg cholmod_solve gtug) s = Some (Ok s)) by (destruct fuel; simpl; rewrite Hd; auto).
  rewrite Hw, Ha. f_equal.
Qed.
Lemma tug_steps k : forall i, gauss_newton exSE cholmod_solve gtug k i (scalars [vx] [0]) = Ok (scalars [vx] [0]).
Proof.
  induction k as [|k IH]; intros i; auto. cbn [gauss_newton].
  assert (E : gauss_newton_step exSE cholmod_solve gtug i (scalars [vx] [0]) = Ok (scalars [vx] [0])).
  { unfold gauss_newton_step. rewrite tug_residual. cbn [bind]. destruct (tug_zero 0 i) as (A & EA & HT & _ & HS).
    rewrite EA. cbn [bind]. rewrite HT. cbn [bind]. change n0 with 0. rewrite HS by lra. cbn [bind]. apply tug_stay. }
  rewrite E. cbn [bind]. auto.
Qed.
Lemma tug_better : exists c r, compute_cost exSE gtug (scalars [vx] [-8]) = Ok (c, r) /\ c < 272.
Proof.
  assert (E : compute_whitened_residual_vector exSE gtug (scalars [vx] [-8]) = Ok [0; -264 * sqrt (1 / 264)]).
  { comp. rewrite (root (2 * (-8 - -8)) 0), (root (1 * (-8 - 256)) 264) by lra. rewrite (far 264) by lra.
    rewrite (proj2 (Rltb_ok 0 1)) by lra. cbn. do 3 f_equal; [lra|]. f_equal. f_equal. lra. }
  unfold compute_cost. rewrite E. cbn [bind]. do 2 eexists. split; [reflexivity|]. comp.
  assert (H : sqrt (1 / 264) * sqrt (1 / 264) = 1 / 264) by (apply sqrt_sqrt; lra). nra.
Qed.

Lemma tug_factors f : In f tug -> factor_ok f.
Proof. intros [<-|[<-|[]]]; (split; [split; [split; [reflexivity | exists 1%nat; reflexivity] | split; reflexivity] | repeat constructor]). Qed.
Lemma tug_assigns x : assigns exSE tug (scalars [vx] [x]) (fun _ => leaf1 [x]).
Proof.
  exists [vx]. split; [split; [repeat constructor; simpl; tauto | split; reflexivity]|]. split; [intros v; reflexivity|]. intros v [<-|[]]; reflexivity.
Qed.
Lemma tug_example : exists g,
  classes_ok (e_cls (exSE (T := R))) /\ (forall f, In f tug -> factor_ok f) /\ graph_make exSE tug = Ok g /\
  wf_assign (e_cls (exSE (T := R))) [vx] false (scalars [vx] [0]) /\ (forall t, of_type t [vx] = of_type t (mentioned tug)) /\
  (forall v, In v [vx] -> get_value (e_cls exSE) (scalars [vx] [0]) v = Ok (leaf1 [0])) /\
  (forall f, In f tug -> jacobian_shape_ok exSE (fun _ => leaf1 [0]) f) /\ (forall f, In f tug -> robust_noise (f_noise f)) /\
  total residual_dim tug = 2%nat /\ length [1] = l_dim (g_local_layout g) /\
  (forall t v, In v [vx] -> retract (e_cls exSE (v_ty v)) (leaf1 [0]) (vscale t (block (e_cls exSE) (g_local_layout g) [1] v)) = Ok (leaf1 [0 + t * 1]) /\
     value_ok (e_cls exSE (v_ty v)) (leaf1 [0 + t * 1])) /\
  (forall v : var, In v [vx] -> leaf1 [0 + 0 * 1] = leaf1 [0]) /\
  (forall f, In f tug -> vderiv (fun t => residual_at exSE (fun _ => leaf1 [0 + t * 1]) f)
     (slots_times (e_cls exSE) (g_local_layout g) [1] (residual_dim f) (f_vars f) (jacobians_at exSE (fun _ => leaf1 [0]) f))).
Proof.
  exists gtug. split; [intros [|[|t]]; repeat constructor|]. split; [exact tug_factors|]. split; [reflexivity|].
  split; [split; [repeat constructor; simpl; tauto | split; reflexivity]|]. split; [intros; reflexivity|]. split; [intros v [<-|[]]; reflexivity|].
  split; [intros f [<-|[<-|[]]]; repeat constructor|].
  split; [intros f [<-|[<-|[]]]; right; do 2 eexists; (split; [reflexivity | split; [exact I | lra]])|].
  split; [reflexivity|]. split; [reflexivity|]. split; [intros t v [<-|[]]; split; [reflexivity | split; repeat constructor]|].
  split; [intros; do 2 f_equal; lra|].
  assert (Hone : forall z, vderiv (fun t => [0 + t * 1 - z]) [1]).
  { intros z. split; auto. intros [|[|k]]; cbn [nth]; try apply derivable_pt_lim_const.
    intros eps He. exists (mkposreal 1 Rlt_0_1). intros h Hh _.
    replace ((0 + (0 + h) * 1 - z - (0 + 0 * 1 - z)) / h - 1) with 0 by (field; auto). rewrite Rabs_R0. auto. }
  intros f [<-|[<-|[]]].
  - eapply (vderiv_ext (fun t => [0 + t * 1 - -8])); [intros; reflexivity|].
    match goal with |- vderiv _ ?d => replace d with [1]; [apply Hone|] end. comp. f_equal. lra.
  - eapply (vderiv_ext (fun t => [0 + t * 1 - 256])); [intros; reflexivity|].
    match goal with |- vderiv _ ?d => replace d with [1]; [apply Hone|] end. comp. f_equal. lra.
Qed.

Lemma stuck_above_cost : exists (E : env R) fs g init better val val' c c' r r',
  (forall f, In f fs -> factor_ok f /\ robust_noise (f_noise f)) /\ graph_make E fs = Ok g /\ assigns E fs init val /\ assigns E fs better val' /\
  compute_cost E g init = Ok (c, r) /\ compute_cost E g better = Ok (c', r') /\ c' < c /\
  (forall fuel cfg, 0 < cost_tolerance cfg -> (1 <= fuel)%nat -> gn_solve E fuel cfg cholmod_solve g init = Some (Ok init)) /\
  (forall fuel unroll it, (1 <= it)%Z -> (Z.to_nat it <= fuel)%nat -> fixed_solve E fuel unroll it cholmod_solve g init = Some (Ok init)).
Proof.
  destruct tug_better as (c' & r' & Hc' & Hlt).
  exists exSE, tug, gtug, (scalars [vx] [0]), (scalars [vx] [-8]), (fun _ => leaf1 [0]), (fun _ => leaf1 [-8]), 272, c', [4; -16], r'.
  split. { intros f Hf. split; [apply tug_factors; auto|]. destruct Hf as [<-|[<-|[]]]; right; do 2 eexists; (split; [reflexivity | split; [exact I | lra]]). }
  split; [reflexivity|]. do 2 (split; [apply tug_assigns|]). split; [exact tug_cost|]. split; auto. split; auto. split.
  - intros. apply tug_gn; auto.
  - intros fuel unroll it H1 H2. destruct (fixed_exact R NumR exSE cholmod_solve gtug (scalars [vx] [0]) fuel) as [H _].
    rewrite H, tug_steps by auto. cbn [bind]. rewrite tug_residual. reflexivity.
Qed.
