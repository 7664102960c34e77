(* Proofs: the steps of the solvers vanish exactly where the whitened residuals, pulled back
   through the Jacobians, cancel; started there every solver returns the values it was given. *)
From Coq Require Import List Arith Bool Lia Permutation Reals Lra ZArith.
From Verif Require Import Num NumR Py Arr MLayout MAssign MNoise MSparse MFactor MGraph MLinear MSolver SpecLayout SpecTree SpecAssign SpecGraph SpecSparse SpecNoise SpecDeriv SpecOrder SpecInv SpecSolver SpecTwin SpecBook SpecLin SpecNear SpecSettle.
From Verif Require Import PBase PLayout PTree PAssign PAssign2 PAssign3 PStack PGraph PGraph2 PJac PVec PSparse PLinear PCg PGraph3 PGraph4 PGraph5 PHold POrder POrder2 PSolver PSolver2 PSolverR PDescent PTotal PInv PTwin PTwin2 PExGraph PExInv PLinCg PLin PLinDl PExLinDl PBook PExBook PFree.
Import ListNotations.
Local Open Scope R_scope.

Lemma pushed_scale rd vs (Js : list (list (list R))) t xi : pushed rd vs Js (fun v => vscale t (xi v)) = vscale t (pushed rd vs Js xi).
Proof.
  unfold pushed. revert Js. induction vs as [|v vs IH]; intros [|J Js]; cbn [zipw fold_right]; rewrite ?vscale_vzero; auto.
  rewrite IH, vscale_vadd. f_equal. apply mvec_scale.
Qed.
Lemma no_force a q : (forall t, 0 <= 2 * (t * a) + t * t * q) -> a = 0.
Proof.
  intros H. destruct (Req_dec a 0) as [|Ha]; auto. exfalso.
  set (M := Rabs q + 1). assert (HM : 0 < M) by (unfold M; pose proof (Rabs_pos q); lra). assert (Hq : q < M) by (unfold M; pose proof (Rle_abs q); lra).
  specialize (H (- a / M)). assert (E : 2 * (- a / M * a) + - a / M * (- a / M) * q = (a * a) * ((q - M) - M) / (M * M)) by (field; lra). rewrite E in H.
  assert (0 < a * a) by nra. assert (0 < / (M * M)) by (apply Rinv_0_lt_compat; nra).
  assert (a * a * (q - M - M) < 0) by nra. unfold Rdiv in H. nra.
Qed.

Section Rest.
Variable E : env R.
Variable fs : list (factor R).
Hypothesis WP : well_posed E fs.
Notation legal_at val := (forall v, In v (mentioned fs) -> value_ok (e_cls E (v_ty v)) (val v)).
Notation nowhere := (fun v : var => vzero (vldim (e_cls E) v)).

Definition bend_at (val : var -> pytree R) (xi : var -> list R) (f : factor R) : R :=
  match whitened_at E val f with
  | Ok w => match whitened_jacobians_at E val f w with
            | Ok Js => sumsq (pushed (residual_dim f) (f_vars f) Js xi)
            | Err _ => 0
            end
  | Err _ => 0
  end.
Definition bend val xi := vsum (map (bend_at val xi) fs).

Lemma model_split val xi : legal_at val -> tangent E fs xi -> model E fs val val xi = cost_at E fs val + 2 * pull E fs val xi + bend val xi.
Proof.
  intros Hv Hx. pose proof WP as [CO Hok Hws _ _].
  assert (H : forall f, In f fs -> model_at E val val xi f = match whitened_at E val f with Ok w => sumsq w | Err _ => 0 end + 2 * pull_at E val xi f + bend_at val xi f).
  { intros f Hf. unfold model_at, pull_at, bend_at. destruct (whitened_at E val f) as [w|] eqn:Ew; [|ring].
    destruct (whitened_at_ok E val f (proj1 (Hok f Hf)) (ws_residual E fs Hws val f Hv Hf)) as (w' & Ew' & Hw). rewrite Ew in Ew'. injection Ew' as <-.
    assert (Hi : forall v, In v (f_vars f) -> length (xi v) = vldim (e_cls E) v) by (intros v Hi; apply Hx, mentioned_in; eauto).
    destruct (pushed_white E (f_noise f) w (f_vars f) xi (jacobians_at E val f) (proj1 (Hok f Hf)) Hw (ws_jacobian E fs Hws val f Hv Hf) Hi) as (Ws & EW & HP).
    unfold whitened_jacobians_at. rewrite EW. change (noise_dim (f_noise f)) with (residual_dim f) in HP.
    assert (HL : length (pushed (residual_dim f) (f_vars f) Ws xi) = length w).
    { rewrite HP, vscale_length. destruct (wl_ok (base (f_noise f)) (pushed (residual_dim f) (f_vars f) (jacobians_at E val f) xi) (base_ok _ (proj1 (Hok f Hf)))) as (_ & Hl).
      - rewrite base_dim. apply (pushed_len E). apply (ws_jacobian E fs Hws val f Hv Hf).
      - rewrite Hl, base_dim. symmetry. exact Hw. }
    rewrite sumsq_add by auto. rewrite (vdot_comm w). ring. }
  unfold model, cost_at, pull, bend. clear - H. induction fs as [|f l IH]; cbn [map]; rewrite ?vsum_nil, ?vsum_cons; [ring|]. rewrite IH by (intros; apply H; right; auto). rewrite H by (left; auto). ring.
Qed.
Lemma pull_scale val t xi : pull E fs val (fun v => vscale t (xi v)) = t * pull E fs val xi.
Proof.
  unfold pull. clear WP. induction fs as [|f l IH]; cbn [map]; rewrite ?vsum_nil, ?vsum_cons; [ring|]. rewrite IH. unfold pull_at. destruct (whitened_at E val f) as [w|]; [|ring]. destruct (whitened_jacobians_at E val f w); [|ring].
  rewrite pushed_scale, vdot_scale_r. ring.
Qed.
Lemma bend_scale val t xi : bend val (fun v => vscale t (xi v)) = t * t * bend val xi.
Proof.
  unfold bend. clear WP. induction fs as [|f l IH]; cbn [map]; rewrite ?vsum_nil, ?vsum_cons; [ring|]. rewrite IH. unfold bend_at. destruct (whitened_at E val f) as [w|]; [|ring]. destruct (whitened_jacobians_at E val f w); [|ring].
  rewrite pushed_scale, sumsq_scale. ring.
Qed.
Lemma bend_nonneg val xi : 0 <= bend val xi.
Proof.
  unfold bend. clear WP. induction fs as [|f l IH]; cbn [map]; rewrite ?vsum_nil, ?vsum_cons; [lra|]. unfold bend_at at 1. destruct (whitened_at E val f) as [w|]; [|lra]. destruct (whitened_jacobians_at E val f w) as [Js|]; [|lra].
  pose proof (sumsq_nonneg (pushed (residual_dim f) (f_vars f) Js xi)). lra.
Qed.
Lemma tangent_scale t xi : tangent E fs xi -> tangent E fs (fun v => vscale t (xi v)).
Proof. intros H v Hv. rewrite vscale_length. auto. Qed.
Lemma tangent_zero : tangent E fs nowhere.
Proof. intros v Hv. apply vzero_length. Qed.
Lemma pull_ext val xi eta : agree fs xi eta -> pull E fs val xi = pull E fs val eta.
Proof.
  intros H. unfold pull. apply vsum_map_ext. intros f Hf. unfold pull_at. destruct (whitened_at E val f) as [w|]; auto. destruct (whitened_jacobians_at E val f w) as [Js|]; auto.
  f_equal. unfold pushed. f_equal. assert (Hv : forall v, In v (f_vars f) -> xi v = eta v) by (intros v Hv; apply H, mentioned_in; eauto).
  revert Js Hv. generalize (f_vars f). induction l as [|v l IH]; intros [|J Js] Hv; cbn [zipw]; auto. f_equal; [rewrite Hv; [auto | left; auto] | apply IH; intros; apply Hv; right; auto].
Qed.
Lemma inner_scale t xi : inner fs (fun v => vscale t (xi v)) (fun v => vscale t (xi v)) = t * t * inner fs xi xi.
Proof. unfold inner. generalize (mentioned fs). induction l as [|v l IH]; cbn [map]; rewrite ?vsum_nil, ?vsum_cons; [ring|]. rewrite IH, vdot_scale_l, vdot_scale_r. ring. Qed.

Lemma zero_of_scale : agree fs nowhere (fun v => vscale 0 (vzero (T := R) (vldim (e_cls E) v))).
Proof. intros v _. rewrite vscale_vzero. auto. Qed.
Lemma model_zero val : legal_at val -> model E fs val val nowhere + 0 = cost_at E fs val.
Proof.
  intros Hv. rewrite (model_ext E fs val val _ _ zero_of_scale), model_split by (auto; apply tangent_scale, tangent_zero). rewrite pull_scale, bend_scale. ring.
Qed.
Lemma inner_zero : inner fs nowhere nowhere = 0.
Proof. unfold inner. generalize (mentioned fs). induction l as [|v l IH]; cbn [map]; rewrite ?vsum_nil, ?vsum_cons; auto. rewrite IH, vdot_zero_r. ring. Qed.

Lemma rest_step beta val xi : 0 < beta -> legal_at val -> damped_step E fs beta val val xi -> (agree fs xi nowhere <-> balanced E fs val).
Proof.
  intros Hb Hv (Tx & Hx). pose proof (model_zero val Hv) as M0. split.
  - intros Ha eta Te. apply (no_force _ (bend val eta + beta * inner fs eta eta)). intros t.
    destruct (Hx (fun v => vscale t (eta v)) (tangent_scale t eta Te)) as (H & _).
    rewrite (model_ext E fs val val xi _ Ha), (inner_ext fs xi _ xi _ Ha Ha), inner_zero, (model_split val (fun v => vscale t (eta v))), pull_scale, bend_scale, inner_scale in H by (auto; apply tangent_scale; auto). lra.
  - intros HB. destruct (Hx nowhere tangent_zero) as (_ & H). intros v Hv'. symmetry. apply H; auto.
    rewrite inner_zero, (model_split val xi), (HB xi Tx) by auto. pose proof (bend_nonneg val xi). pose proof (inner_nonneg fs xi). assert (0 <= beta * inner fs xi xi) by (apply Rmult_le_pos; lra). lra.
Qed.

(* ---- whole runs ---- *)
Section Runs.
Variable val : var -> pytree R.
Hypothesis Hv : legal_at val.
Hypothesis HB : balanced E fs val.
Hypothesis Hs : forall v, In v (mentioned fs) -> retract (e_cls E (v_ty v)) (val v) (vzero (vldim (e_cls E) v)) = Ok (val v).
Definition at_rest (u : var -> pytree R) := forall v, In v (mentioned fs) -> u v = val v.

Lemma rest_legal u : at_rest u -> legal_at u.
Proof. intros H v Hi. rewrite H by auto. auto. Qed.
Lemma rest_white u f : at_rest u -> In f fs -> whitened_at E u f = whitened_at E val f /\ forall w, whitened_jacobians_at E u f w = whitened_jacobians_at E val f w.
Proof.
  intros H Hf. assert (Hm : map u (f_vars f) = map val (f_vars f)) by (apply map_ext_in; intros v Hi; apply H, mentioned_in; eauto).
  split; [unfold whitened_at, residual_at; rewrite Hm; auto|]. intros w. unfold whitened_jacobians_at, jacobians_at. rewrite Hm. auto.
Qed.
Lemma rest_balanced u : at_rest u -> balanced E fs u.
Proof.
  intros H xi Tx. rewrite <- (HB xi Tx). unfold pull. apply vsum_map_ext. intros f Hf. destruct (rest_white u f H Hf) as (E1 & E2). unfold pull_at. rewrite E1. destruct (whitened_at E val f) as [w|]; auto. rewrite E2. auto.
Qed.
Lemma rest_model u w xi : at_rest u -> at_rest w -> model E fs u w xi = model E fs u u xi.
Proof.
  intros Hu Hw. unfold model. apply vsum_map_ext. intros f Hf. unfold model_at. destruct (rest_white u f Hu Hf) as (E1 & _). destruct (rest_white w f Hw Hf) as (E3 & _). rewrite E1, E3. auto.
Qed.
Lemma rest_damped u w beta xi : at_rest u -> at_rest w -> 0 < beta -> damped_step E fs beta u w xi -> agree fs xi nowhere.
Proof.
  intros Hu Hw Hb (Tx & H). apply (rest_step beta u xi Hb (rest_legal u Hu)); [|apply rest_balanced; auto].
  split; auto. intros eta Te. rewrite <- !(rest_model u w) by auto. apply H; auto.
Qed.
Lemma rest_moved u xi p : at_rest u -> agree fs xi nowhere -> moved E fs u xi p -> at_rest p.
Proof. intros Hu Hx Hp v Hi. specialize (Hp v Hi). rewrite Hx, Hu, Hs in Hp by auto. injection Hp as ->. auto. Qed.

Lemma gn_rest k u u' : at_rest u -> turns (gauss_newton_turn E fs) k u u' -> at_rest u'.
Proof.
  intros Hu Ht. induction Ht as [|k u w z (xi & Hd & Hm) Ht IH]; auto. apply IH. apply (rest_moved u xi); auto. apply (rest_damped u u (1 / 100000)); auto. lra.
Qed.
Lemma lm_rest cfg k b b' : 0 < lambda_factor cfg -> 0 < lambda_min cfg -> at_rest (b_val b) -> at_rest (b_old b) -> 0 < b_extra b -> turns (lm_turn E fs cfg) k b b' -> at_rest (b_val b').
Proof.
  intros Hf Hm Hu Ho Hp Ht. induction Ht as [|k b b1 b2 (xi & p & Hd & Hmv & Hdec) Ht IH]; auto.
  assert (Hr : at_rest p). { apply (rest_moved (b_val b) xi); auto. apply (rest_damped (b_val b) (b_old b) (b_extra b + 1 / 100000)); auto. lra. }
  destruct Hdec as [(_ & ->)|(_ & ->)]; apply IH; auto; cbn.
  - apply Rmult_lt_0_compat; auto. apply Rinv_0_lt_compat; auto.
  - eapply Rlt_le_trans; [exact Hm | apply Rmax_l].
Qed.
Lemma dl_rest cfg k b b' : at_rest (b_val b) -> at_rest (b_old b) -> 0 < b_extra b -> turns (dogleg_turn E fs cfg) k b b' -> at_rest (b_val b').
Proof.
  intros Hu Ho Hp Ht. induction Ht as [|k b b1 b2 (xi & p & (gn & Hd & Hg) & Hmv & Hdec) Ht IH]; auto.
  assert (Hz : agree fs gn nowhere) by (apply (rest_damped (b_val b) (b_old b) (1 / 100000)); auto; lra).
  assert (Hsz : size fs gn = 0) by (unfold size; rewrite (inner_ext fs gn _ gn _ Hz Hz), inner_zero; apply sqrt_0).
  assert (Hx : agree fs xi nowhere). { destruct Hg as [(_ & Ha)|(Hlt & _)]; [|lra]. intros v Hi. rewrite Ha by auto. auto. }
  assert (Hr : at_rest p) by (apply (rest_moved (b_val b) xi); auto).
  assert (Hex : forall q : R, 0 < (if Rlt_dec q (1 / 4) then b_extra b / 2 else if Rlt_dec (3 / 4) q then Rmax (b_extra b) (3 * size fs xi) else b_extra b)).
  { intros q. destruct (Rlt_dec q (1 / 4)); [lra|]. destruct (Rlt_dec (3 / 4) q); auto. eapply Rlt_le_trans; [exact Hp | apply Rmax_l]. }
  destruct Hdec as [(_ & ->)|(_ & ->)]; apply IH; auto; cbn; apply Hex.
Qed.
Lemma rest_assigns a u : at_rest u -> assigns E fs a u -> assigns E fs a val.
Proof. intros Hu (vs & Hwf & Hi & Hg). exists vs. split; auto. split; auto. intros v Hin. rewrite Hg by auto. f_equal. apply Hu, Hi; auto. Qed.
End Runs.

Lemma rest_solves g init val fuel : graph_make E fs = Ok g -> assigns E fs init val -> balanced E fs val ->
  (forall v, In v (mentioned fs) -> retract (e_cls E (v_ty v)) (val v) (vzero (vldim (e_cls E) v)) = Ok (val v)) ->
  (forall cfg, (iteration_cap (max_iterations cfg) <= fuel)%nat -> exists a', gn_solve E fuel cfg cholmod_solve g init = Some (Ok a') /\ assigns E fs a' val) /\
  (forall unroll it, same_layout (as_layout init) (g_layout g) -> (1 <= it)%Z -> (Z.to_nat it <= fuel)%nat -> exists a', fixed_solve E fuel unroll it cholmod_solve g init = Some (Ok a') /\ assigns E fs a' val) /\
  (forall cfg, (iteration_cap (max_iterations (lm_term cfg)) <= fuel)%nat -> 0 < lambda_initial cfg -> 0 < lambda_factor cfg -> 0 < lambda_min cfg ->
     exists a', lm_solve E fuel cfg cholmod_solve g init = Some (Ok a') /\ assigns E fs a' val) /\
  (forall cfg, (iteration_cap (max_iterations (dl_term cfg)) <= fuel)%nat -> 0 < radius_initial cfg -> exists a', dl_solve E fuel cfg cholmod_solve g init = Some (Ok a') /\ assigns E fs a' val).
Proof.
  intros Eg Hi HB Hs. pose proof WP as [CO _ _ _ _].
  assert (Hv : legal_at val).
  { destruct Hi as (vs & Hwf & Hin & Hg). intros v Hv. destruct (get_value_ok _ CO vs init v Hwf) as (x & Ex & Hx & _); [apply Hin; auto|]. rewrite Hg in Ex by (apply Hin; auto). injection Ex as <-. auto. }
  assert (H0 : at_rest val val) by (intros v _; auto).
  destruct (book_solves E fs g init val fuel WP Eg Hi) as (H1 & H2 & H3 & H4). split; [|split; [|split]].
  - intros cfg Hf. destruct (H1 cfg Hf) as (a' & k & u & Es & _ & Ht & Ha). exists a'. split; auto. apply (rest_assigns val a' u); auto. eapply gn_rest; eauto.
  - intros un it Hl Hit Hf. destruct (H2 un it Hl Hit Hf) as (a' & u & Es & Ht & Ha). exists a'. split; auto. apply (rest_assigns val a' u); auto. eapply gn_rest; eauto.
  - intros cfg Hf L1 L2 L3. destruct (H3 cfg Hf L1 L2 L3) as (a' & k & b & Es & _ & Ht & Ha). exists a'. split; auto. apply (rest_assigns val a' (b_val b)); auto. eapply (lm_rest val Hv HB Hs cfg k (mkBook val val (lambda_initial cfg)) b); auto.
  - intros cfg Hf L1. destruct (H4 cfg Hf L1) as (a' & k & b & Es & _ & Ht & Ha). exists a'. split; auto. apply (rest_assigns val a' (b_val b)); auto. eapply (dl_rest val Hv HB Hs cfg k (mkBook val val (radius_initial cfg)) b); auto.
Qed.
End Rest.
