(* Proofs: where the cost stays below its model, every step of every solver lowers the cost,
   by an amount that bounds the gradient. *)
From Coq Require Import List Arith Bool Lia Permutation Reals Lra ZArith.
From Verif Require Import Num NumR Py Arr MLayout MAssign MNoise MSparse MFactor MGraph MLinear MSolver SpecLayout SpecTree SpecAssign SpecGraph SpecSparse SpecNoise SpecDeriv SpecOrder SpecInv SpecSolver SpecTwin SpecBook SpecLin SpecNear SpecSettle SpecMean.
From Verif Require Import PBase PLayout PTree PAssign PAssign2 PAssign3 PStack PGraph PGraph2 PJac PVec PSparse PLinear PCg PGraph3 PGraph4 PGraph5 PHold POrder POrder2 PSolver PSolver2 PSolverR PDescent PTotal PInv PTwin PTwin2 PExGraph PExInv PLinCg PLin PLinDl PExLinDl PBook PExBook PFree PStraight PTurn PSettle6.
Import ListNotations.
Local Open Scope R_scope.

(* ---- the model is convex ---- *)
Notation mix b x y := (vadd x (vscale b (vsub y x))).
Lemma mix_vadd b (x y z w : list R) : vadd (mix b x y) (mix b z w) = mix b (vadd x z) (vadd y w).
Proof.
  revert y z w. induction x as [|x0 x IH]; intros [|y0 y] [|z0 z] [|w0 w]; try reflexivity; unfold vadd, vscale, vsub in *; cbn [zipw map]; try reflexivity.
  f_equal; [cbn; ring | apply IH].
Qed.
Lemma mix_vadd_r b (x y w : list R) : vadd (mix b x y) w = mix b (vadd x w) (vadd y w).
Proof.
  revert y w. induction x as [|x0 x IH]; intros [|y0 y] [|w0 w]; try reflexivity; unfold vadd, vscale, vsub in *; cbn [zipw map]; try reflexivity.
  f_equal; [cbn; ring | apply IH].
Qed.
Lemma mix_sumsq b (x y : list R) : 0 <= b <= 1 -> sumsq (mix b x y) <= (1 - b) * sumsq x + b * sumsq y.
Proof.
  intros Hb. revert y. induction x as [|x0 x IH]; intros y.
  - unfold vadd. cbn [zipw]. change (sumsq (T := R) []) with 0. pose proof (sumsq_nonneg y). nra.
  - destruct y as [|y0 y]; unfold vadd, vscale, vsub in *; cbn [zipw map].
    + change (sumsq (T := R) []) with 0. pose proof (sumsq_nonneg (x0 :: x)). nra.
    + rewrite !sumsq_cons. specialize (IH y). rn. pose proof (Rle_0_sqr (y0 - x0)) as Hs. unfold Rsqr in Hs.
      replace ((x0 + b * (y0 - x0)) * (x0 + b * (y0 - x0))) with ((1 - b) * (x0 * x0) + b * (y0 * y0) - b * (1 - b) * ((y0 - x0) * (y0 - x0))) by ring.
      assert (0 <= b * (1 - b) * ((y0 - x0) * (y0 - x0))) by (apply Rmult_le_pos; [apply Rmult_le_pos; lra | auto]).
      unfold vadd, vscale, vsub in IH. rnin IH. lra.
Qed.
Lemma mix_zero b n : mix b (vzero (T := R) n) (vzero n) = vzero n.
Proof. unfold vadd, vscale, vsub, vzero. induction n as [|n IH]; cbn [repeat zipw map]; auto. f_equal; [cbn; ring | auto]. Qed.
Lemma pushed_mix b rd vs (Js : list (list (list R))) xi eta : (forall v, In v vs -> length (xi v) = length (eta v)) ->
  pushed rd vs Js (fun v => mix b (xi v) (eta v)) = mix b (pushed rd vs Js xi) (pushed rd vs Js eta).
Proof.
  intros H. unfold pushed. revert Js. induction vs as [|v vs IH]; intros [|J Js]; cbn [zipw fold_right]; try (rewrite mix_zero; auto).
  rewrite IH by (intros; apply H; right; auto). rewrite <- mix_vadd. f_equal. assert (Hl := H v (or_introl eq_refl)).
  assert (Hs : length (vsub (eta v) (xi v)) = length (eta v)) by (apply vsub_length; auto).
  rewrite mvec_add by (rewrite vscale_length, Hs; auto). rewrite mvec_scale. f_equal. f_equal. unfold mvec, vsub. induction J as [|row J' IHJ]; cbn [map zipw]; auto. f_equal; auto. apply vdot_sub_r. auto.
Qed.

Section Below.
Variable E : env R.
Variable fs : list (factor R).
Hypothesis WP : well_posed E fs.
Variable P : (var -> pytree R) -> Prop.
Hypothesis HP : majorised E fs P.
Notation legal_at val := (forall v, In v (mentioned fs) -> value_ok (e_cls E (v_ty v)) (val v)).
Notation nowhere := (fun v : var => vzero (vldim (e_cls E) v)).
Hypothesis HL : forall val, P val -> legal_at val.
Hypothesis Hs : forall val, P val -> forall v, In v (mentioned fs) -> retract (e_cls E (v_ty v)) (val v) (vzero (vldim (e_cls E) v)) = Ok (val v).
Notation cost := (cost_at E fs).
Notation m val := (model E fs val val).

Lemma model_convex val old b xi eta : 0 <= b <= 1 -> tangent E fs xi -> tangent E fs eta ->
  model E fs val old (fun v => mix b (xi v) (eta v)) <= (1 - b) * model E fs val old xi + b * model E fs val old eta.
Proof.
  intros Hb Tx Te. assert (H : forall f, In f fs -> model_at E val old (fun v => mix b (xi v) (eta v)) f <= (1 - b) * model_at E val old xi f + b * model_at E val old eta f).
  { intros f Hf. unfold model_at. destruct (whitened_at E old f) as [w|]; [|lra]. destruct (whitened_jacobians_at E val f w) as [Js|]; [|lra].
    rewrite pushed_mix. 2: { intros v Hv. rewrite (Tx v), (Te v) by (apply mentioned_in; eauto). auto. }
    rewrite mix_vadd_r. apply mix_sumsq; auto. }
  unfold model. clear - H. induction fs as [|f l IH]; cbn [map]; rewrite ?vsum_nil, ?vsum_cons; [lra|].
  pose proof (H f (or_introl eq_refl)). specialize (IH (fun f Hf => H f (or_intror Hf))). lra.
Qed.
Lemma quad p q d : (forall t, 0 <= t * t * q + 2 * t * p + d) -> p * p <= d * q.
Proof.
  intros H. destruct (Req_dec q 0) as [->|Hq].
  - assert (Hp : p = 0). { destruct (Req_dec p 0) as [|Hp]; auto. exfalso. specialize (H (- (d + 1) / (2 * p))). replace (2 * (- (d + 1) / (2 * p)) * p) with (- (d + 1)) in H by (field; auto). lra. }
    subst p. lra.
  - assert (H0 : 0 < q).
    { destruct (Rlt_or_le 0 q) as [|Hn]; auto. exfalso. assert (Hq' : q < 0) by lra. set (t := (Rabs d + Rabs p + 1) * (1 + / - q)).
      pose proof (H t) as H1. pose proof (H (- t)) as H2. assert (Hi : 0 < / - q) by (apply Rinv_0_lt_compat; lra).
      assert (Hd : 0 <= t * t * q + d) by lra. pose proof (Rabs_pos d). pose proof (Rabs_pos p). pose proof (Rle_abs d).
      assert (Ht : 1 <= t) by (unfold t; nra). assert (Htq : t * - q >= Rabs d + Rabs p + 1).
      { unfold t. replace ((Rabs d + Rabs p + 1) * (1 + / - q) * - q) with ((Rabs d + Rabs p + 1) * (- q + 1)) by (field; lra). nra. }
      assert (t * (t * - q) >= 1 * (Rabs d + Rabs p + 1)) by nra. nra. }
    specialize (H (- p / q)). replace (- p / q * (- p / q) * q + 2 * (- p / q) * p + d) with (d - p * p / q) in H by (field; auto).
    apply (Rmult_le_reg_r (/ q)); [apply Rinv_0_lt_compat; auto|]. replace (d * q * / q) with d by (field; auto). unfold Rdiv in H. lra.
Qed.

(* what a step of damping beta gains bounds the gradient *)
Lemma step_gain beta val xi : 0 < beta -> P val -> damped_step E fs beta val val xi ->
  m val xi <= cost val /\ forall eta, tangent E fs eta -> pull E fs val eta * pull E fs val eta <= (cost val - m val xi) * (bend E fs val eta + beta * inner fs eta eta).
Proof.
  intros Hb Hv (Tx & Hx).
  assert (H : forall eta, tangent E fs eta -> forall t, 0 <= t * t * (bend E fs val eta + beta * inner fs eta eta) + 2 * t * pull E fs val eta + (cost val - m val xi)).
  { intros eta Te t. destruct (Hx (fun v => vscale t (eta v)) (tangent_scale E fs t eta Te)) as (H & _).
    rewrite (model_split E fs WP val (fun v => vscale t (eta v))), pull_scale, bend_scale, inner_scale in H by (auto; apply tangent_scale; auto).
    pose proof (inner_nonneg fs xi). assert (0 <= beta * inner fs xi xi) by (apply Rmult_le_pos; lra). lra. }
  split; [specialize (H _ (tangent_zero E fs) 0); lra|]. intros eta Te. apply quad. apply H; auto.
Qed.
Lemma no_gain beta val xi : 0 < beta -> P val -> damped_step E fs beta val val xi -> cost val <= m val xi -> balanced E fs val /\ agree fs xi nowhere.
Proof.
  intros Hb Hv Hd Hc. destruct (step_gain beta val xi Hb Hv Hd) as (H1 & H2). assert (HB : balanced E fs val).
  { intros eta Te. specialize (H2 eta Te). replace (cost val - m val xi) with 0 in H2 by lra. nra. }
  split; auto. apply (rest_step E fs WP beta val xi); auto.
Qed.
Lemma gn_gain val val' : P val -> gauss_newton_turn E fs val val' -> P val' /\ cost val' <= cost val /\
  forall eta, tangent E fs eta -> pull E fs val eta * pull E fs val eta <= (cost val - cost val') * (bend E fs val eta + 1 / 100000 * inner fs eta eta).
Proof.
  intros Hv (xi & Hd & Hm). destruct (HP val xi val' Hv (proj1 Hd) Hm) as (Hv' & Hc). destruct (step_gain (1 / 100000) val xi ltac:(lra) Hv Hd) as (H1 & H2).
  split; auto. split; [lra|]. intros eta Te. eapply Rle_trans; [apply H2; auto|]. apply Rmult_le_compat_r; [|lra].
  pose proof (bend_nonneg E fs val eta). pose proof (inner_nonneg fs eta). lra.
Qed.
Lemma gn_strict val val' : P val -> gauss_newton_turn E fs val val' -> cost val' = cost val -> balanced E fs val.
Proof. intros Hv Ht He eta Te. destruct (gn_gain val val' Hv Ht) as (_ & _ & H). specialize (H eta Te). rewrite He in H. replace (cost val - cost val) with 0 in H by ring. nra. Qed.
Lemma gn_down k val val' : turns (gauss_newton_turn E fs) k val val' -> P val -> P val' /\ cost val' <= cost val /\ ((1 <= k)%nat -> cost val' = cost val -> balanced E fs val).
Proof.
  induction 1 as [val|k val val1 val' H1 H IH]; intros Hv; [split; auto; split; [lra | lia]|].
  destruct (gn_gain val val1 Hv H1) as (P1 & C1 & _). destruct (IH P1) as (P2 & C2 & _). split; auto. split; [lra|]. intros _ He. apply (gn_strict val val1); auto. lra.
Qed.

(* ---- trust regions: every step is accepted ---- *)
Definition progress (val : var -> pytree R) (xi : var -> list R) : Prop := tangent E fs xi /\ (m val xi < cost val \/ (balanced E fs val /\ agree fs xi nowhere)).
Definition sound (b : book) : Prop := P (b_val b) /\ at_rest fs (b_val b) (b_old b) /\ 0 < b_extra b.
Lemma same_old val old xi : at_rest fs val old -> model E fs val old xi = m val xi.
Proof. intros H. apply (rest_model E fs val val old xi); auto. intros v _. auto. Qed.
Lemma decided_down qmin val old xi p extra b' : qmin <= 1 -> P val -> at_rest fs val old -> progress val xi -> moved E fs val xi p -> (forall q acc, 0 < extra q acc) -> decided E fs qmin val old xi p extra b' ->
  sound b' /\ cost (b_val b') <= cost val /\ (cost (b_val b') = cost val -> balanced E fs val).
Proof.
  intros Hq Hv Ho (Tx & Hpr) Hm Hex Hdec. destruct (HP val xi p Hv Tx Hm) as (Hp & Hc). unfold decided, quality in Hdec. cbn zeta in Hdec. rewrite (same_old val old xi Ho) in Hdec.
  destruct Hpr as [Hlt|(HB & Hz)].
  - assert (Hone : 1 <= (cost p - cost val) / (m val xi - cost val)).
    { replace ((cost p - cost val) / (m val xi - cost val)) with ((cost val - cost p) / (cost val - m val xi)) by (field; lra). apply (Rmult_le_reg_r (cost val - m val xi)); [lra|]. unfold Rdiv. rewrite Rmult_assoc, Rinv_l, Rmult_1_r by lra. lra. }
    destruct Hdec as [(_ & ->)|(Hl & _)]; [|lra]. cbn. split; [split; [auto|]; split; [intros v _; auto | apply Hex]|]. split; lra.
  - assert (Hr : at_rest fs val p) by (apply (rest_moved E fs val (Hs val Hv) val xi p); auto; intros v _; auto).
    assert (Hce : cost p = cost val) by (apply cost_at_ext; auto).
    destruct Hdec as [(_ & ->)|(_ & ->)]; cbn; (split; [split; [auto|]; split; [intros v Hi; auto | apply Hex]|]; split; auto; lra).
Qed.
Lemma lm_progress beta val old xi : 0 < beta -> P val -> at_rest fs val old -> damped_step E fs beta val old xi -> progress val xi.
Proof.
  intros Hb Hv Ho Hd. assert (Hd' : damped_step E fs beta val val xi).
  { destruct Hd as (Tx & H). split; auto. intros eta Te. rewrite <- !(same_old val old) by auto. apply H; auto. }
  split; [apply Hd|]. destruct (Rlt_or_le (m val xi) (cost val)) as [|Hle]; auto. right. apply (no_gain beta); auto.
Qed.
Lemma lm_down cfg b b' : 0 < lambda_factor cfg -> 0 < lambda_min cfg -> lm_quality_min cfg <= 1 -> sound b -> lm_turn E fs cfg b b' ->
  sound b' /\ cost (b_val b') <= cost (b_val b) /\ (cost (b_val b') = cost (b_val b) -> balanced E fs (b_val b)).
Proof.
  intros Hf Hmin Hq (Hv & Ho & He) (xi & p & Hd & Hm & Hdec). apply (decided_down (lm_quality_min cfg) (b_val b) (b_old b) xi p _ b' Hq Hv Ho) in Hdec; auto.
  - apply (lm_progress (b_extra b + 1 / 100000) (b_val b) (b_old b)); auto. lra.
  - intros q [|]; [apply Rdiv_lt_0_compat; lra | eapply Rlt_le_trans; [exact Hmin | apply Rmax_l]].
Qed.

Lemma inner_null xi : inner fs xi xi = 0 -> forall v, In v (mentioned fs) -> forall eta, length eta = length (xi v) -> vdot (xi v) eta = 0.
Proof.
  unfold inner. generalize (mentioned fs). induction l as [|u l IH]; intros H v Hv eta Hl; [destruct Hv|]. cbn [map] in H. rewrite vsum_cons in H.
  assert (H1 : 0 <= vdot (xi u) (xi u)) by (rewrite <- sumsq_dot; apply sumsq_nonneg).
  assert (H2 : 0 <= vsum (map (fun v => vdot (xi v) (xi v)) l)) by (apply vsum_nonneg; intros; rewrite <- sumsq_dot; apply sumsq_nonneg).
  destruct Hv as [->|Hv]; [|apply IH; auto; lra]. pose proof (cauchy_schwarz (xi v) eta (eq_sym Hl)) as C. rewrite (sumsq_dot (xi v)) in C. replace (vdot (xi v) (xi v)) with 0 in C by lra. nra.
Qed.
Lemma steepest val sd : P val -> downhill E fs val val sd -> (forall eta, tangent E fs eta -> pull E fs val eta = - inner fs sd eta) /\ (inner fs sd sd = 0 -> balanced E fs val).
Proof.
  intros Hv (Ts & H). assert (HF : forall eta, tangent E fs eta -> pull E fs val eta = - inner fs sd eta).
  { intros eta Te. specialize (H eta Te). assert (Hn : agree fs (fun v => vneg (eta v)) (fun v => vscale (-1) (eta v))) by (intros v _; unfold vneg, vscale; apply map_ext; intros y; cbn; ring).
    rewrite (model_ext E fs val val _ _ Hn), !(model_split E fs WP), pull_scale, bend_scale in H by (auto; apply tangent_scale; auto). lra. }
  split; auto. intros H0 eta Te. rewrite HF by auto. unfold inner. rewrite (vsum_map_ext _ (fun _ => 0)).
  - clear. induction (mentioned fs) as [|v l IH]; cbn [map]; rewrite ?vsum_nil, ?vsum_cons; lra.
  - intros v Hin. apply (inner_null sd H0 v Hin). rewrite (Te v Hin), (Ts v Hin). auto.
Qed.
Lemma along_model val sd t : P val -> downhill E fs val val sd -> m val (along t sd) = cost val - 2 * t * inner fs sd sd + t * t * bend E fs val sd.
Proof.
  intros Hv Hd. unfold along. rewrite (model_split E fs WP) by (auto; apply tangent_scale; apply Hd). rewrite pull_scale, bend_scale. rewrite (proj1 (steepest val sd Hv Hd) sd (proj1 Hd)). ring.
Qed.
Lemma dl_progress radius val old xi : 0 < radius -> P val -> at_rest fs val old -> dogleg_point E fs radius val old xi -> progress val xi.
Proof.
  intros Hr Hv Ho (gn & Hd & Hx).
  assert (Hd' : damped_step E fs (1 / 100000) val val gn).
  { destruct Hd as (Tx & H). split; auto. intros eta Te. rewrite <- !(same_old val old) by auto. apply H; auto. }
  assert (Tg : tangent E fs gn) by apply Hd'.
  assert (Hcp : forall a, cauchy_point E fs val old a -> exists sd t, downhill E fs val val sd /\ agree fs a (along t sd) /\ forall t', m val (along t sd) <= m val (along t' sd)).
  { intros a (sd & t & (Ts & H1) & H2 & H3). exists sd, t. split; [|split; [auto|]].
    - split; auto. intros eta Te. rewrite <- !(same_old val old) by auto. apply H1; auto.
    - intros t'. rewrite <- !(same_old val old) by auto. apply H3. }
  assert (Hgn : m val gn <= cost val) by (apply (step_gain (1 / 100000) val gn); auto; lra).
  assert (Hrest : balanced E fs val -> agree fs xi nowhere).
  { intros HB. assert (Hz : agree fs gn nowhere) by (apply (rest_step E fs WP (1 / 100000) val gn); auto; lra).
    assert (Hsz : size fs gn = 0) by (unfold size; rewrite (inner_ext fs gn _ gn _ Hz Hz), inner_zero; apply sqrt_0).
    destruct Hx as [(_ & Ha)|(Hlt & _)]; [|lra]. intros v Hi. rewrite Ha by auto. auto. }
  destruct Hx as [(_ & Ha)|(Hlt & _ & a & Hca & Hx)].
  - split; [intros v Hi; rewrite Ha by auto; auto|]. rewrite (model_ext E fs val val xi gn Ha).
    destruct (Rlt_or_le (m val gn) (cost val)) as [|Hle]; auto. right. destruct (no_gain (1 / 100000) val gn ltac:(lra) Hv Hd' Hle). auto.
  - destruct (Hcp a Hca) as (sd & t & Hsd & Hat & Hmin). pose proof (along_model val sd) as AM.
    assert (Ta : tangent E fs a) by (intros v Hi; rewrite Hat by auto; unfold along; rewrite vscale_length; apply Hsd; auto).
    assert (Ha0 : m val a <= cost val) by (rewrite (model_ext E fs val val a _ Hat); specialize (Hmin 0); rewrite (AM 0) in Hmin by auto; lra).
    destruct Hx as [(Hra & Hxa)|(Hra & b & Hb & Hxa)].
    + set (th := radius / size fs a) in *. assert (Hth : 0 < th <= 1).
      { unfold th. split; [apply Rdiv_lt_0_compat; lra|]. apply (Rmult_le_reg_r (size fs a)); [lra|]. unfold Rdiv. rewrite Rmult_assoc, Rinv_l by lra. lra. }
      assert (Tx : tangent E fs xi) by (intros v Hi; rewrite Hxa by auto; unfold along; rewrite vscale_length; apply Ta; auto).
      split; auto. destruct (Rlt_or_le (m val xi) (cost val)) as [|Hle]; auto. right. enough (HB : balanced E fs val) by auto.
      apply (steepest val sd Hv Hsd). set (S := inner fs sd sd) in *. set (B := bend E fs val sd) in *.
      assert (Ex : m val xi = cost val - 2 * (th * t) * S + (th * t) * (th * t) * B).
      { rewrite <- AM by auto. apply model_ext. intros v Hi. rewrite Hxa by auto. unfold along. rewrite Hat by auto. unfold along. apply vscale_vscale. }
      assert (HtB : forall t', - 2 * t * S + t * t * B <= - 2 * t' * S + t' * t' * B) by (intros t'; specialize (Hmin t'); rewrite !AM in Hmin by auto; fold S B in Hmin; lra).
      assert (HB0 : 0 <= B) by apply bend_nonneg. assert (Hge : 0 <= - 2 * t * S + t * t * B).
      { assert (Hk : 0 <= th * (- 2 * t * S + th * (t * t * B))) by lra. assert (Hk' : 0 <= - 2 * t * S + th * (t * t * B)) by (apply (Rmult_le_reg_l th); lra).
        assert (0 <= t * t * B) by (apply Rmult_le_pos; [apply Rle_0_sqr | auto]). assert (th * (t * t * B) <= 1 * (t * t * B)) by (apply Rmult_le_compat_r; lra). lra. }
      assert (HS : - S = 0); [|lra]. apply (no_force (- S) B). intros t'. specialize (HtB t'). lra.
    + assert (Tx : tangent E fs xi). { intros v Hi. rewrite Hxa by auto. rewrite vadd_length; rewrite ?vscale_length, ?vsub_length; rewrite ?(Ta v Hi), ?(Tg v Hi); auto. }
      split; auto. destruct (Rlt_or_le (m val xi) (cost val)) as [|Hle]; auto. right. enough (HB : balanced E fs val) by auto.
      rewrite (model_ext E fs val val xi _ Hxa) in Hle. pose proof (model_convex val val b a gn ltac:(lra) Ta Tg) as HC.
      apply (no_gain (1 / 100000) val gn ltac:(lra) Hv Hd'). assert ((1 - b) * m val a <= (1 - b) * cost val) by (apply Rmult_le_compat_l; lra).
      apply (Rmult_le_reg_l b); lra.
Qed.
Lemma dl_down cfg b b' : dl_quality_min cfg <= 1 -> sound b -> dogleg_turn E fs cfg b b' ->
  sound b' /\ cost (b_val b') <= cost (b_val b) /\ (cost (b_val b') = cost (b_val b) -> balanced E fs (b_val b)).
Proof.
  intros Hq (Hv & Ho & He) (xi & p & Hd & Hm & Hdec). apply (decided_down (dl_quality_min cfg) (b_val b) (b_old b) xi p _ b' Hq Hv Ho) in Hdec; auto.
  - apply (dl_progress (b_extra b) (b_val b) (b_old b)); auto.
  - intros q _. destruct (Rlt_dec q (1 / 4)); [lra|]. destruct (Rlt_dec (3 / 4) q); auto. eapply Rlt_le_trans; [exact He | apply Rmax_l].
Qed.
Lemma books_down (step : book -> book -> Prop) : (forall b b', sound b -> step b b' -> sound b' /\ cost (b_val b') <= cost (b_val b) /\ (cost (b_val b') = cost (b_val b) -> balanced E fs (b_val b))) ->
  forall k b b', turns step k b b' -> sound b -> P (b_val b') /\ cost (b_val b') <= cost (b_val b) /\ ((1 <= k)%nat -> cost (b_val b') = cost (b_val b) -> balanced E fs (b_val b)).
Proof.
  intros Hst. induction 1 as [b|k b b1 b' H1 H IH]; intros Hb; [split; [apply Hb | split; [lra | lia]]|].
  destruct (Hst b b1 Hb H1) as (S1 & C1 & B1). destruct (IH S1) as (P2 & C2 & _). split; auto. split; [lra|]. intros _ He. apply B1. lra.
Qed.

(* ---- among n iterations one has a small gradient; the gradients vanish ---- *)
Lemma turns_front {A} (step : A -> A -> Prop) k x z : turns step (S k) x z -> exists y, turns step k x y /\ step y z.
Proof.
  revert x. induction k as [|k IH]; intros x H; inversion H as [|? ? y ? H1 H2]; subst.
  - inversion H2; subst. exists x. split; [constructor | auto].
  - destruct (IH _ H2) as (w & W1 & W2). exists w. split; auto. econstructor; eauto.
Qed.
End Below.
