(* Bundling lemmas and concrete instances for C111. *)
From Coq Require Import List Arith Bool ZArith Lia Permutation Reals Lra Psatz.
From Verif Require Import Num NumR Py Arr MLayout MAssign MNoise MSparse MFactor MGraph MLinear MSolver SpecLayout SpecTree SpecAssign SpecGraph SpecSparse SpecNoise SpecDeriv SpecOrder SpecInv SpecSolver SpecTwin SpecBook SpecLin SpecLocal.
From Verif Require Import PJac.
From Verif Require Import PBase PLayout PTree PAssign PAssign2 PGraph PGraph2 PVec PSparse PHold PSolver PSolver2 PSolverR PDescent PInv PJac POrder2 PTwin PTwin2 PExGraph Ex ExG ExS PExInv PExSolver PExOrder PExDescent PExLinDl PExLoss PBook PExBook SpecPull PPull.
Import ListNotations.
Local Open Scope R_scope.

Lemma fourth delta n : 0 < delta -> delta <= n -> exists a, 1 <= a /\ n = delta * (a * a * (a * a)) /\ sqrt (sqrt (n / delta)) = a /\ sqrt (delta / n) = / (a * a).
Proof.
  intros Hd Hn. set (a := sqrt (sqrt (n / delta))). exists a.
  assert (Hr : 1 <= n / delta) by (apply (Rmult_le_reg_r delta); auto; unfold Rdiv; rewrite Rmult_assoc, Rinv_l by lra; lra).
  assert (H1 : 1 <= sqrt (n / delta)) by (rewrite <- sqrt_1 at 1; apply sqrt_le_1_alt; auto).
  assert (H2 : 1 <= a) by (unfold a; rewrite <- sqrt_1 at 1; apply sqrt_le_1_alt; auto).
  assert (Ea : a * a = sqrt (n / delta)) by (apply sqrt_sqrt; lra).
  assert (Eb : a * a * (a * a) = n / delta) by (rewrite Ea; apply sqrt_sqrt; lra).
  split; auto. split; [rewrite Eb; field; lra|]. split; auto.
  assert (En : delta / n = Rsqr (/ (a * a))). { unfold Rsqr. rewrite <- Rinv_mult. rewrite Eb. field. lra. }
  rewrite En. apply sqrt_Rsqr. apply Rlt_le, Rinv_0_lt_compat. nra.
Qed.
Lemma pulls_weights nm w r n p q : noise_ok nm -> length r = noise_dim nm -> pulls nm w n p q -> n = vnorm (wl w r) ->
  base nm = w /\ let al := alpha nm r in let be := beta nm (vnorm (vscale al (wl w r))) in 0 <= al /\ 0 <= be /\ al * n * be = p /\ be * be = q.
Proof.
  intros Hn Hl Hp En. assert (N0 : 0 <= vnorm (wl w r)) by apply vnorm_sq.
  assert (Hs : forall k, 0 <= k -> vnorm (vscale k (wl w r)) = k * n).
  { intros k Hk. rewrite En. unfold vnorm. change (sqrt (sumsq (vscale k (wl w r))) = k * sqrt (sumsq (wl w r))). rewrite sumsq_scale, sqrt_mult by (try apply sumsq_nonneg; apply Rle_0_sqr). rewrite sqrt_square by auto. auto. }
  assert (Hbase : forall w0, linear_noise w0 -> base w0 = w0 /\ (forall z, alpha w0 z = 1) /\ forall x, beta w0 x = 1) by (intros [| |] Hw0; cbn; auto; destruct Hw0).
  destruct Hp as [w n Hw|w delta n Hw Hd Hlt|w delta n Hw Hd Hle]; destruct (Hbase w Hw) as (B1 & B2 & B3).
  - split; auto. cbv zeta. rewrite B2, B3. repeat split; lra.
  - split; [exact B1|]. cbn [alpha beta]. cbv zeta. rewrite B1, B2, B3. rewrite (Hs 1) by lra. unfold shrink. cbn [scal scalar a_data a_shape unwrap]. rn.
    unfold Rltb. destruct (Rlt_dec (1 * n) delta) as [_|F]; [|exfalso; apply F; lra]. rewrite (Hs (1 * 1)) by lra.
    destruct (Rlt_dec (1 * 1 * n) delta) as [_|F]; [|exfalso; apply F; lra]. repeat split; lra.
  - split; [exact B1|]. destruct (fourth delta n Hd Hle) as (a & Ha & Hna & E1 & E2). rewrite E1, E2.
    cbn [alpha beta]. cbv zeta. rewrite B1, B2, B3. rewrite (Hs 1) by lra. unfold shrink. cbn [scal scalar a_data a_shape unwrap]. rn.
    unfold Rltb. destruct (Rlt_dec (1 * n) delta) as [F|_]; [exfalso; lra|]. rewrite !Rmult_1_l, !Rmult_1_r, E2.
    assert (Hi : 0 < / (a * a)) by (apply Rinv_0_lt_compat; nra). rewrite (Hs (/ (a * a))) by lra.
    assert (Ev : / (a * a) * n = delta * (a * a)) by (rewrite Hna; field; nra). rewrite Ev.
    destruct (Rlt_dec (delta * (a * a)) delta) as [F|_]; [exfalso; nra|].
    assert (Er : sqrt (delta / (delta * (a * a))) = / a).
    { replace (delta / (delta * (a * a))) with (Rsqr (/ a)) by (unfold Rsqr; field; lra). apply sqrt_Rsqr. apply Rlt_le, Rinv_0_lt_compat. lra. }
    rewrite Er. assert (0 < / a) by (apply Rinv_0_lt_compat; lra). split; [lra|]. split; [lra|]. split; field; lra.
Qed.

Lemma pull_bound : forall (E : env R) fs f g g' s s' val step step' w r m G p q,
  well_posed E fs -> well_posed E (fs ++ [f]) -> mentioned (fs ++ [f]) = mentioned fs -> graph_make E fs = Ok g -> graph_make E (fs ++ [f]) = Ok g' ->
  carries E fs g s val val -> carries E (fs ++ [f]) g' s' val val ->
  gauss_newton_iteration E g cholmod_solve step -> gauss_newton_iteration E g' cholmod_solve step' ->
  whiten_residual w (residual_at E val f) = Ok r -> pulls (f_noise f) w (vnorm r) p q ->
  0 <= m -> 0 <= G -> stiff E fs val m -> reach E fs f w val G ->
  exists s1 s1' val1 val1' xi xi', step s = Ok s1 /\ step' s' = Ok s1' /\ carries E fs g s1 val1 val1 /\ carries E (fs ++ [f]) g' s1' val1' val1' /\
    tangent E fs xi /\ tangent E fs xi' /\ moved E fs val xi val1 /\ moved E fs val xi' val1' /\
    (m + 1 / 100000) * size fs (gap xi xi') <= sqrt G * (p + q * (sqrt G * size fs xi)).
Proof.
  intros E fs f g g' s s' val step step' w r m G p q WP WP' Hm Eg Eg' Hc Hc' Hst Hst' Er Hp Hm0 HG Hsf Hre.
  destruct (book_gauss_newton E fs g s val step WP Eg Hc Hst) as (s1 & val1 & S1 & C1 & xi & Dx & Mx).
  destruct (book_gauss_newton E (fs ++ [f]) g' s' val step' WP' Eg' Hc' Hst') as (s1' & val1' & S1' & C1' & xi' & Dx' & Mx').
  assert (Hin : In f (fs ++ [f])) by (apply in_or_app; right; left; auto).
  destruct Hc' as (Ha' & Hl' & _). pose proof (at_holds E (fs ++ [f]) g' WP' Eg' _ _ Ha' Hl') as Hh. pose proof WP' as [CO Hok Hws _ _].
  pose proof (holds_legal E (fs ++ [f]) CO _ _ Hh) as Leg.
  assert (Hall : forall h, In h (fs ++ [f]) -> factor_ok h /\ residual_shape_ok E val h /\ jacobian_shape_ok E val h).
  { intros h Hh'. split; auto. split; [apply (ws_residual E (fs ++ [f]) Hws); auto | apply (ws_jacobian E (fs ++ [f]) Hws); auto]. }
  destruct (Hall f Hin) as ((Hn & _) & F2 & _).
  destruct (pulls_weights (f_noise f) w (residual_at E val f) (vnorm r) p q Hn F2 Hp) as (Hb & Hw); [unfold wl; rewrite Er; auto|]. cbv zeta in Hw.
  assert (Ewl : wl w (residual_at E val f) = r) by (unfold wl; rewrite Er; auto). rewrite Ewl in Hw. destruct Hw as (A1 & A2 & A3 & A4).
  pose proof (more_pull E fs f val m G (1 / 100000) xi xi' Hall Hm ltac:(lra) HG Hsf) as H. rewrite Hb in H. specialize (H Hre Dx Dx'). cbv zeta in H. rewrite Ewl in H. specialize (H A1 A2).
  exists s1, s1', val1, val1', xi, xi'. do 4 (split; [assumption|]). split; [apply Dx|].
  assert (Ht : forall z, tangent E (fs ++ [f]) z -> tangent E fs z) by (intros z Hz v Hv; apply Hz; rewrite Hm; auto).
  split; [apply Ht; apply Dx'|]. split; [assumption|]. split; [intros v Hv; apply Mx'; rewrite Hm; auto|].
  set (al := alpha (f_noise f) (residual_at E val f)) in *. set (be := beta (f_noise f) (vnorm (vscale al r))) in *. set (h := size fs (gap xi xi')) in *. set (S0 := sqrt G * size fs xi) in *.
  assert (H' : (m + 1 / 100000) * h * h <= sqrt G * (p + q * S0) * h).
  { rewrite <- A3, <- A4. replace (sqrt G * (al * vnorm r * be + be * be * S0) * h) with ((al * vnorm r + be * S0) * (be * (sqrt G * h))) by ring. lra. }
  assert (h0 : 0 <= h) by apply sqrt_pos. destruct (Req_dec h 0) as [Hz|Hz].
  - rewrite Hz, Rmult_0_r. apply Rmult_le_pos; [apply sqrt_pos|]. apply Rplus_le_le_0_compat; [rewrite <- A3; repeat apply Rmult_le_pos; auto; apply vnorm_sq|].
    apply Rmult_le_pos; [rewrite <- A4; apply Rmult_le_pos; auto | apply Rmult_le_pos; apply sqrt_pos].
  - apply (Rmult_le_reg_r h); [lra | exact H'].
Qed.

(* ---- x pinned to 0, and a Huber factor with threshold 1 pulling it to k^4 ---- *)
Definition pinned : list (factor R) := [anchor vx 0].
Definition yank (k : R) : factor R := pull 1 (k * k * (k * k)).
Definition held : var -> pytree R := fun _ => leaf1 [0].

Lemma shaped_yank (fs : list (factor R)) : fs <> [] -> (forall f, In f fs -> f = anchor vx 0 \/ exists k, f = yank k) -> well_posed exSE fs.
Proof.
  intros Hne H.
  assert (Hm : forall v, In v (mentioned fs) -> v = vx).
  { intros v Hv. unfold mentioned in Hv; apply (proj1 (firsts_in _ _)) in Hv; apply in_flat_map in Hv as (f & Hf & Hv). destruct (H f Hf) as [->|(k & ->)]; destruct Hv as [<-|[]]; auto. }
  assert (Hin : forall f, In f fs -> f_vars f = [vx]) by (intros f Hf; destruct (H f Hf) as [->|(k & ->)]; reflexivity).
  assert (Hval : forall val f, legal exSE fs val -> In f fs -> exists r, val vx = leaf1 [r]).
  { intros val f Hv Hf. assert (Hv' : In vx (mentioned fs)) by (apply mentioned_in; exists f; split; auto; rewrite Hin; auto; left; auto). apply scalar_shape. exact (Hv vx Hv'). }
  destruct fs as [|f0 l]; [congruence|]. split.
  - exact exS_classes.
  - intros f Hf. destruct (H f Hf) as [->|(k & ->)]; repeat constructor; exists 1%nat; reflexivity.
  - split.
    + intros val f Hv Hf. destruct (Hval val f Hv Hf) as (r & Er). destruct (H f Hf) as [->|(k & ->)]; unfold residual_shape_ok, residual_at; cbn [yank pull anchor f_vars map]; rewrite Er; reflexivity.
    + intros val f Hv Hf. destruct (Hval val f Hv Hf) as (r & Er). destruct (H f Hf) as [->|(k & ->)]; unfold jacobian_shape_ok, jacobians_at; cbn [yank pull anchor f_vars map]; rewrite Er; repeat constructor.
    + intros v x d Hv Hx Hd. rewrite (Hm v Hv) in *. destruct (scalar_shape x Hx) as (r & ->). destruct d as [|e [|? ?]]; try discriminate Hd; eexists; (split; [reflexivity | split; repeat constructor]).
  - exists f0. split; [left; auto|]. destruct (H f0 (or_introl eq_refl)) as [->|(k & ->)]; discriminate.
  - exists vx. split; [apply mentioned_in; exists f0; split; [left; auto | rewrite (Hin f0 (or_introl eq_refl)); left; auto] | discriminate].
Qed.
Lemma pin_posed : well_posed exSE pinned.
Proof. apply shaped_yank; [discriminate|]. intros f [<-|[]]. auto. Qed.
Lemma yank_posed k : well_posed exSE (pinned ++ [yank k]).
Proof. apply shaped_yank; [discriminate|]. intros f [<-|[<-|[]]]; eauto. Qed.
Lemma pin_tangent xi : tangent exSE pinned xi -> exists y, xi vx = [y].
Proof. intros H. specialize (H vx (or_introl eq_refl)). destruct (xi vx) as [|y [|? ?]]; try discriminate H. eauto. Qed.
Lemma pin_model xi y : xi vx = [y] -> model exSE pinned held held xi = y * y.
Proof.
  intros H. rewrite (model_ext exSE pinned held held xi (fun _ => [y])) by (intros v [<-|[]]; exact H). comp. unfold Rlit. field.
Qed.
Lemma yank_model k xi y : 1 <= k -> xi vx = [y] -> model_at exSE held held xi (yank k) = (y / k - k * k) * (y / k - k * k).
Proof.
  intros Hk H. assert (He : model_at exSE held held xi (yank k) = model_at exSE held held (fun _ => [y]) (yank k)).
  { pose proof (model_ext exSE [yank k] held held xi (fun _ => [y])) as P. unfold model in P. cbn [map] in P. rewrite !vsum_cons, !vsum_nil, !Rplus_0_r in P. apply P. intros v [<-|[]]. exact H. }
  rewrite He. clear He H. assert (K2 : 1 <= k * k) by nra. assert (K4 : 1 <= k * k * (k * k)) by nra.
  comp. rewrite (root (1 * (0 - k * k * (k * k))) (k * k * (k * k))) by (try lra; ring). rewrite far by lra.
  replace (sqrt (1 / (k * k * (k * k)))) with (/ (k * k)) by (symmetry; apply sqrt_lem_1; [apply Rlt_le, Rdiv_lt_0_compat; lra | apply Rlt_le, Rinv_0_lt_compat; lra | field; lra]).
  rewrite ?(root (1 * (0 - k * k * (k * k)) * / (k * k)) (k * k)) by (try lra; field; lra). rewrite ?far by lra.
  replace (sqrt (1 / (k * k))) with (/ k) by (symmetry; apply sqrt_lem_1; [apply Rlt_le, Rdiv_lt_0_compat; lra | apply Rlt_le, Rinv_0_lt_compat; lra | field; lra]).
  comp. field. lra.
Qed.
Lemma held_pin : assigns exSE pinned (scalars [vx] [0]) held /\ same_layout (as_layout (scalars (T := R) [vx] [0])) (g_layout (graph_of pinned)).
Proof.
  split; [|repeat split]. exists [vx]. split; [split; [repeat constructor; simpl; tauto | split; reflexivity]|]. split; [intros v; simpl; tauto|]. intros v [<-|[]]. reflexivity.
Qed.
Lemma carried fs g : well_posed exSE fs -> graph_make exSE fs = Ok g -> assigns exSE fs (scalars [vx] [0]) held -> same_layout (as_layout (scalars (T := R) [vx] [0])) (g_layout g) ->
  exists s, carries exSE fs g s held held.
Proof.
  intros WP Eg Ha Hl. pose proof (at_holds exSE fs g WP Eg _ _ Ha Hl) as Hh. destruct (cost_book exSE fs g WP Eg _ _ Hh) as (Ec & _).
  exists (mkState 0%nat (scalars [vx] [0]) (cost_at exSE fs held) (rvec fs (wv exSE held)) false 0).
  apply (holds_carries exSE fs g WP Eg _ held (cost_at exSE fs held)); auto.
Qed.
Lemma pin_inner xi y : xi vx = [y] -> inner pinned xi xi = y * y.
Proof. intros H. unfold inner. change (mentioned pinned) with [vx]. cbn [map]. rewrite H. comp. ring. Qed.
Lemma pin_stiff : stiff exSE pinned held 1.
Proof.
  intros xi eta Hx He. destruct (pin_tangent xi Hx) as (x & Ex). destruct (pin_tangent eta He) as (y & Ey).
  assert (H : forall t, stepped xi t eta vx = [x + t * y]) by (intros t; unfold stepped; rewrite Ex, Ey; reflexivity).
  rewrite (pin_model _ _ (H 1)), (pin_model _ _ (H (-1))), (pin_model xi x Ex), (pin_inner eta y Ey). lra.
Qed.
Notation unit_noise := (DiagGaussian (mkArr [1%nat] [1])).
Lemma yank_reach k : reach exSE pinned (yank k) unit_noise held 1.
Proof.
  intros eta He. destruct (pin_tangent eta He) as (y & Ey). rewrite (pin_inner eta y Ey). exists [1 * (0 + 1 * y + 0)]. split.
  - unfold pushed. change (f_vars (yank k)) with [vx]. change (jacobians_at exSE held (yank k)) with [[[1]]]. cbn [zipw fold_right]. rewrite Ey. comp. do 3 f_equal. ring.
  - comp. apply Req_le. ring.
Qed.

Lemma pull_grows : forall B, exists k g g' s s' r, 1 <= k /\
  well_posed exSE pinned /\ well_posed exSE (pinned ++ [yank k]) /\ mentioned (pinned ++ [yank k]) = mentioned pinned /\ graph_make exSE pinned = Ok g /\ graph_make exSE (pinned ++ [yank k]) = Ok g' /\
  carries exSE pinned g s held held /\ carries exSE (pinned ++ [yank k]) g' s' held held /\
  f_noise (yank k) = Huber (DiagGaussian (mkArr [1%nat] [1])) (scal 1) /\ whiten_residual (DiagGaussian (mkArr [1%nat] [1])) (residual_at exSE held (yank k)) = Ok r /\
  pulls (f_noise (yank k)) (DiagGaussian (mkArr [1%nat] [1])) (vnorm r) (1 * sqrt (sqrt (vnorm r / 1))) (sqrt (1 / vnorm r)) /\
  stiff exSE pinned held 1 /\ reach exSE pinned (yank k) (DiagGaussian (mkArr [1%nat] [1])) held 1 /\
  forall step step', gauss_newton_iteration exSE g cholmod_solve step -> gauss_newton_iteration exSE g' cholmod_solve step' ->
  exists s1 s1' val1 val1' x, step s = Ok s1 /\ step' s' = Ok s1' /\ carries exSE pinned g s1 val1 val1 /\ carries exSE (pinned ++ [yank k]) g' s1' val1' val1' /\
    val1 vx = leaf1 [0] /\ val1' vx = leaf1 [x] /\ B <= x.
Proof.
  intros B. set (k := Rmax 1 (3 * B)). assert (K1 : 1 <= k) by apply Rmax_l. assert (KB : 3 * B <= k) by apply Rmax_r.
  assert (K2 : 1 <= k * k) by nra. assert (K4 : 1 <= k * k * (k * k)) by nra. clearbody k.
  assert (Eg : graph_make exSE pinned = Ok (graph_of pinned)) by reflexivity.
  assert (Eg' : graph_make exSE (pinned ++ [yank k]) = Ok (graph_of (pinned ++ [yank k]))) by reflexivity.
  destruct held_pin as (H1 & H2).
  destruct (carried pinned _ pin_posed Eg H1 H2) as (s & Hs).
  destruct (carried (pinned ++ [yank k]) _ (yank_posed k) Eg') as (s' & Hs'); [exact H1 | exact H2|].
  exists k, (graph_of pinned), (graph_of (pinned ++ [yank k])), s, s', [1 * (0 - k * k * (k * k))].
  assert (Hn : vnorm [1 * (0 - k * k * (k * k))] = k * k * (k * k)) by (unfold vnorm; change (sqrt (1 * (0 - k * k * (k * k)) * (1 * (0 - k * k * (k * k))) + 0) = k * k * (k * k)); apply root; [lra | ring]).
  split; [auto|]. split; [exact pin_posed|]. split; [apply yank_posed|]. split; [reflexivity|]. split; [exact Eg|]. split; [exact Eg'|]. split; [exact Hs|]. split; [exact Hs'|].
  split; [reflexivity|]. split; [reflexivity|]. split; [apply pulls_outlier; [exact I | lra | rewrite Hn; lra]|]. split; [exact pin_stiff|]. split; [apply yank_reach|].
  intros step step' Hst Hst'.
  destruct (book_gauss_newton exSE pinned _ s held step pin_posed Eg Hs Hst) as (s1 & val1 & S1 & C1 & xi & (Tx & Dx) & Mx).
  destruct (book_gauss_newton exSE (pinned ++ [yank k]) _ s' held step' (yank_posed k) Eg' Hs' Hst') as (s1' & val1' & S1' & C1' & xi' & (Tx' & Dx') & Mx').
  change (tangent exSE (pinned ++ [yank k])) with (tangent exSE pinned) in *. change (inner (pinned ++ [yank k])) with (inner pinned) in *.
  destruct (pin_tangent xi Tx) as (y & Ey). destruct (pin_tangent xi' Tx') as (x & Ex).
  exists s1, s1', val1, val1', (0 + x). do 4 (split; [assumption|]).
  assert (Tc : forall z, tangent exSE pinned (fun _ => [z])) by (intros z v [<-|[]]; reflexivity).
  assert (M1 : val1 vx = leaf1 [0 + y]) by (specialize (Mx vx (or_introl eq_refl)); rewrite Ey in Mx; injection Mx as <-; reflexivity).
  assert (M2 : val1' vx = leaf1 [0 + x]) by (specialize (Mx' vx (or_introl eq_refl)); rewrite Ex in Mx'; injection Mx' as <-; reflexivity).
  split; [|split; [exact M2|]].
  - rewrite M1. do 2 f_equal. destruct (Dx (fun _ => [0]) (Tc 0)) as (D & _). rewrite (pin_model xi y Ey), (pin_inner xi y Ey), (pin_model (fun _ => [0]) 0 eq_refl), (pin_inner (fun _ => [0]) 0 eq_refl) in D. nra.
  - assert (Hsp : forall z zv, z vx = [zv] -> model exSE (pinned ++ [yank k]) held held z = zv * zv + (zv / k - k * k) * (zv / k - k * k)).
    { intros z zv Hz. unfold model. rewrite map_app, vsum_app. fold (model exSE pinned held held z). rewrite (pin_model z zv Hz). cbn [map]. rewrite vsum_cons, vsum_nil, (yank_model k z zv K1 Hz). lra. }
    assert (Hz : (1 + 1 / 100000) * x + (x / k - k * k) * / k = 0).
    { apply (flat_line _ (1 + 1 / 100000 + / k * / k)); [assert (0 < / k) by (apply Rinv_0_lt_compat; lra); nra|]. intros t.
      destruct (Dx' (fun _ => [x + t]) (Tc (x + t))) as (D & _). rewrite (Hsp xi' x Ex), (pin_inner xi' x Ex), (Hsp (fun _ => [x + t]) (x + t) eq_refl), (pin_inner (fun _ => [x + t]) (x + t) eq_refl) in D.
      unfold Rdiv in *. nra. }
    assert (Hi : 0 < / k <= 1) by (split; [apply Rinv_0_lt_compat; lra | rewrite <- Rinv_1; apply Rinv_le_contravar; lra]).
    assert (Hx : x * (1 + 1 / 100000 + / k * / k) = k) by (replace ((x / k - k * k) * / k) with (x * (/ k * / k) - k) in Hz by (field; lra); lra).
    assert (x0 : 0 < x) by (destruct (Rle_lt_dec x 0) as [F|]; auto; exfalso; assert (0 <= / k * / k) by nra; nra).
    assert (/ k * / k <= 1) by nra. nra.
Qed.

Lemma ex_pull : exists g g' s s' r, well_posed exSE pinned /\ well_posed exSE (pinned ++ [yank 2]) /\ mentioned (pinned ++ [yank 2]) = mentioned pinned /\
  graph_make exSE pinned = Ok g /\ graph_make exSE (pinned ++ [yank 2]) = Ok g' /\ carries exSE pinned g s held held /\ carries exSE (pinned ++ [yank 2]) g' s' held held /\
  gauss_newton_iteration exSE g cholmod_solve (gn_step exSE (term_default 100) cholmod_solve g) /\ gauss_newton_iteration exSE g' cholmod_solve (fixed_step exSE 10 cholmod_solve g') /\
  whiten_residual (DiagGaussian (mkArr [1%nat] [1])) (residual_at exSE held (yank 2)) = Ok r /\ vnorm r = 16 /\ pulls (f_noise (yank 2)) (DiagGaussian (mkArr [1%nat] [1])) (vnorm r) 2 (1/4) /\
  stiff exSE pinned held 1 /\ reach exSE pinned (yank 2) (DiagGaussian (mkArr [1%nat] [1])) held 1.
Proof.
  assert (Eg : graph_make exSE pinned = Ok (graph_of pinned)) by reflexivity.
  assert (Eg' : graph_make exSE (pinned ++ [yank 2]) = Ok (graph_of (pinned ++ [yank 2]))) by reflexivity.
  destruct held_pin as (H1 & H2). destruct (carried pinned _ pin_posed Eg H1 H2) as (s & Hs).
  destruct (carried (pinned ++ [yank 2]) _ (yank_posed 2) Eg') as (s' & Hs'); [exact H1 | exact H2|].
  exists (graph_of pinned), (graph_of (pinned ++ [yank 2])), s, s', [1 * (0 - 2 * 2 * (2 * 2))].
  assert (Hn : vnorm [1 * (0 - 2 * 2 * (2 * 2))] = 16) by (unfold vnorm; change (sqrt (1 * (0 - 2 * 2 * (2 * 2)) * (1 * (0 - 2 * 2 * (2 * 2))) + 0) = 16); apply root; [lra | ring]).
  split; [exact pin_posed|]. split; [apply yank_posed|]. split; [reflexivity|]. split; [exact Eg|]. split; [exact Eg'|]. split; [exact Hs|]. split; [exact Hs'|].
  split; [left; exists (term_default 100); reflexivity|]. split; [right; exists 10%Z; reflexivity|]. split; [reflexivity|]. split; [exact Hn|]. split; [|split; [exact pin_stiff | apply yank_reach]].
  rewrite Hn. change (f_noise (yank 2)) with (Huber (DiagGaussian (mkArr [1%nat] [1])) (scal 1)). replace 2 with (1 * sqrt (sqrt (16 / 1))).
  - replace (1/4) with (sqrt (1 / 16)) by (apply sqrt_lem_1; lra). apply (pulls_outlier unit_noise 1 16); [exact I | lra | lra].
  - replace (sqrt (16 / 1)) with 4 by (symmetry; apply sqrt_lem_1; lra). replace (sqrt 4) with 2 by (symmetry; apply sqrt_lem_1; lra). ring.
Qed.
