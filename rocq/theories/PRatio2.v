(* Problems whose information is proportional: solving them, and where they come from (C94). *)
From Coq Require Import List Arith Bool Lia Permutation Reals Lra ZArith.
From Verif Require Import Num NumR Py Arr MLayout MAssign MNoise MSparse MFactor MGraph MLinear MSolver SpecLayout SpecTree SpecAssign SpecGraph SpecSparse SpecNoise SpecDeriv SpecOrder SpecTwin SpecRatio.
From Verif Require Import PBase PLayout PTree PAssign PAssign2 PAssign3 PStack PGraph PGraph2 PJac PVec PSum PSparse PLinear PDeriv PNoise PLin PCg PGraph3 PGraph4 PGraph5 PHold POrder POrder2 POrder3 PTwin PTwin2 PRatio.
Import ListNotations.
Local Open Scope R_scope.

Section Solve.
Variable E : env R.
Let C := e_cls E.
Hypothesis CO : classes_ok C.

Section Given.
Variables fs fs' : list (factor R).
Variables g g' : graph R.
Hypothesis Hok : forall f, In f fs -> factor_ok f.
Hypothesis Hok' : forall f, In f fs' -> factor_ok f.
Hypothesis Hg : is_graph E fs g.
Hypothesis Hg' : is_graph E fs' g'.
Hypothesis Hrd : total residual_dim fs <> 0%nat.
Hypothesis Hrd' : total residual_dim fs' <> 0%nat.
Hypothesis Hws : well_shaped E fs.
Hypothesis Hws' : well_shaped E fs'.
Variable k : R.
Hypothesis Hk : 0 < k.
Hypothesis HI : proportional_information k E fs fs'.

Lemma start_ratio a a' val extra : holds E fs a val -> holds E fs' a' val ->
  exists s s', init_state E g a extra = Ok s /\ init_state E g' a' extra = Ok s' /\ PRatio.srel E fs fs' k s s' /\ s_extra s = extra.
Proof.
  intros Ha Ha'. destruct (two_costs E fs fs' g g' CO Hok Hok' Hg Hg' Hrd Hrd' Hws Hws' k HI a a' val Ha Ha') as (c & Hc & Hc').
  unfold init_state. rewrite Hc, Hc'. cbn [bind fst snd]. eexists _, _. split; [reflexivity|]. split; [reflexivity|].
  split; auto. split; cbn; auto; [exists val; auto | exists val; split; auto; apply (holds_legal E fs CO a); auto].
Qed.

Lemma solve_ratio_rel (step : graph R -> sstate R -> result (sstate R)) extra (P : sstate R -> Prop) init init' val fuel :
  (forall s s', PRatio.srel E fs fs' k s s' -> P s -> PRatio.rrel E fs fs' k P (step g s) (step g' s')) ->
  (forall s, s_extra s = extra -> P s) ->
  assigns E fs init val -> assigns E fs init' val ->
  same_outcome E fs (solve_with E fuel step extra g init) (solve_with E fuel step extra g' init').
Proof.
  intros Hstep HP Hi Hi'. pose proof (assigns_vars E fs fs' init' val (proj1 HI) Hi') as Hi2.
  unfold solve_with. rewrite (ig_layout _ _ _ Hg), (ig_layout _ _ _ Hg').
  destruct (update_holds E CO fs init val Hi) as (a & -> & Ha). destruct (update_holds E CO fs' init' val Hi2) as (a' & -> & Ha').
  destruct (start_ratio a a' val extra Ha Ha') as (s & s' & -> & -> & Hs & Hx).
  pose proof (PRatio.loop_rel E fs fs' k (step g) (step g') P Hstep fuel s s' Hs (HP s Hx)) as Hl.
  destruct (while_loop fuel _ (step g) s) as [[s1|e]|], (while_loop fuel _ (step g') s') as [[s1'|e']|]; try contradiction; auto.
  destruct Hl as (Hl & _). destruct (PRatio.sr_val _ _ _ _ _ _ Hl) as (val1 & H1 & H1').
  destruct (update_back E CO fs _ val1 init val H1 Hi) as (b & -> & Hb).
  destruct (update_back E CO fs' _ val1 init' val H1' Hi2) as (b' & -> & Hb').
  exists val1. split; auto. apply (assigns_vars E fs'); auto. intros v. symmetry. apply (proj1 HI).
Qed.
End Given.

Lemma solve_ratio k fs fs' g g' init init' val solve fuel : 0 < k ->
  (forall f, In f fs -> factor_ok f) -> (forall f, In f fs' -> factor_ok f) -> no_repeats fs -> no_repeats fs' ->
  proportional_information k E fs fs' ->
  graph_make E fs = Ok g -> graph_make E fs' = Ok g' ->
  total residual_dim fs <> 0%nat -> total residual_dim fs' <> 0%nat -> well_shaped E fs -> well_shaped E fs' ->
  assigns E fs init val -> assigns E fs init' val ->
  cg_based_solver E solve ->
  same_outcome E fs (solve fuel g init) (solve fuel g' init').
Proof.
  intros Hk Hok Hok' Hn Hn' HI Eg Eg' Hrd Hrd' Hws Hws' Hi Hi' Hs.
  assert (Hg := is_graph_of E fs g Hok Eg). assert (Hg' := is_graph_of E fs' g' Hok' Eg').
  destruct Hs as [cfg tol Hoff|cfg tol Hoff|cfg tol Hoff].
  - apply (solve_ratio_rel fs fs' g g' Hok Hok' Hg Hg' Hrd Hrd' Hws Hws' k HI (gn_step E cfg (cg_solve tol)) n0 (fun _ => True) init init' val); auto.
    intros s s' Hs _. apply PRatio.gn_step_rel; auto.
  - apply (solve_ratio_rel fs fs' g g' Hok Hok' Hg Hg' Hrd Hrd' Hws Hws' k HI (lm_step E cfg (cg_solve tol)) (lambda_initial cfg) (fun _ => True) init init' val); auto.
    intros s s' Hs _. apply PRatio.lm_step_rel; auto.
  - apply (solve_ratio_rel fs fs' g g' Hok Hok' Hg Hg' Hrd Hrd' Hws Hws' k HI (dl_step E cfg (cg_solve tol)) (radius_initial cfg) (fun _ => True) init init' val); auto.
    intros s s' Hs _. apply PRatio.dl_step_rel; auto.
Qed.

Lemma fixed_ratio k fs fs' g g' init init' val unroll it fuel tol : 0 < k ->
  (forall f, In f fs -> factor_ok f) -> (forall f, In f fs' -> factor_ok f) -> no_repeats fs -> no_repeats fs' ->
  proportional_information k E fs fs' ->
  graph_make E fs = Ok g -> graph_make E fs' = Ok g' ->
  total residual_dim fs <> 0%nat -> total residual_dim fs' <> 0%nat -> well_shaped E fs -> well_shaped E fs' ->
  assigns E fs init val -> assigns E fs init' val ->
  same_layout (as_layout init) (g_layout g) -> same_layout (as_layout init') (g_layout g') ->
  same_outcome E fs (fixed_solve E fuel unroll it (cg_solve tol) g init) (fixed_solve E fuel unroll it (cg_solve tol) g' init').
Proof.
  intros Hk Hok Hok' Hn Hn' HI Eg Eg' Hrd Hrd' Hws Hws' (vs & Hwf & Hvs & Hv) (vs' & Hwf' & Hvs' & Hv') Hl Hl'.
  assert (Hg := is_graph_of E fs g Hok Eg). assert (Hg' := is_graph_of E fs' g' Hok' Eg'). pose proof (proj1 HI) as Hvars.
  assert (Ha : holds E fs init val).
  { exists vs. split; auto. split; [rewrite <- (ig_layout _ _ _ Hg); auto|]. intros v Hin. apply Hv, Hvs; auto. }
  assert (Ha' : holds E fs' init' val).
  { exists vs'. split; auto. split; [rewrite <- (ig_layout _ _ _ Hg'); auto|]. intros v Hin. apply Hv', Hvs', Hvars; auto. }
  unfold fixed_solve. destruct (start_ratio fs fs' g g' Hok Hok' Hg Hg' Hrd Hrd' Hws Hws' k HI init init' val n0 Ha Ha') as (s & s' & -> & -> & Hs & _).
  assert (Hend : forall r r', PRatio.rrel E fs fs' k (fun _ => True) r r' ->
    same_outcome E fs (match r with Ok st => Some (Ok (s_assign st)) | Err e => Some (Err e) end)
      (match r' with Ok st => Some (Ok (s_assign st)) | Err e => Some (Err e) end)).
  { intros [s1|e] [s1'|e']; simpl; try tauto. intros (H & _). destruct (PRatio.sr_val _ _ _ _ _ _ H) as (val1 & H1 & H1').
    exists val1. split; [apply holds_assigns; auto | apply (assigns_vars E fs'); [intros v; symmetry; apply Hvars | apply holds_assigns; auto]]. }
  assert (Hstep : forall s s', PRatio.srel E fs fs' k s s' -> PRatio.rrel E fs fs' k (fun _ => True) (fixed_step E it (cg_solve tol) g s) (fixed_step E it (cg_solve tol) g' s')) by (intros; apply PRatio.fixed_step_rel; auto).
  destruct unroll.
  - apply Hend. apply PRatio.iterate_rel; auto.
  - pose proof (PRatio.loop_rel E fs fs' k (fixed_step E it (cg_solve tol) g) (fixed_step E it (cg_solve tol) g') (fun _ => True)) as H.
    specialize (H ltac:(intros; apply Hstep; auto) fuel s s' Hs I).
    destruct (while_loop fuel _ (fixed_step E it (cg_solve tol) g) s) as [r|], (while_loop fuel _ (fixed_step E it (cg_solve tol) g') s') as [r'|]; try contradiction; auto.
Qed.

End Solve.

(* ---- where proportional information comes from ---- *)
Section Closed.
Variable E : env R.
Let C := e_cls E.
Lemma prop_same fs fs' : same_information E fs fs' -> proportional_information 1 E fs fs'.
Proof. intros (H1 & H2). split; auto. intros. rewrite Rmult_1_l. symmetry. auto. Qed.
Lemma prop_trans k l fs1 fs2 fs3 : proportional_information k E fs1 fs2 -> proportional_information l E fs2 fs3 -> proportional_information (k * l) E fs1 fs3.
Proof.
  intros (V1 & H1) (V2 & H2). split; [intros v; rewrite V1; apply V2|]. intros val old xi A B D.
  rewrite H2, H1; auto; [ring| | |]; intros v Hv; [apply A | apply B | apply D]; apply V1; auto.
Qed.
Lemma prop_app k a a' b b' : proportional_information k E a a' -> proportional_information k E b b' -> proportional_information k E (a ++ b) (a' ++ b').
Proof.
  intros (V1 & H1) (V2 & H2). split; [intros v; rewrite !mentioned_app, V1, V2; tauto|]. intros val old xi A B D. rewrite !map_app, !vsum_app.
  rewrite H1, H2; [rn; ring| | | | | |]; intros v Hv; (apply A || apply B || apply D); apply mentioned_app; auto.
Qed.
(* every measurement counted m + 1 times *)
Lemma prop_repeat fs m : proportional_information (INR (m + 1)) E fs (concat (repeat fs (m + 1))).
Proof.
  induction m as [|m IH].
  - cbn [repeat concat plus]. rewrite app_nil_r. simpl INR. apply prop_same, info_refl.
  - destruct IH as (V & H). replace (S m + 1)%nat with (S (m + 1)) by lia. cbn [repeat concat]. split; [intros v; rewrite mentioned_app, <- V; tauto|].
    intros val old xi A B D. rewrite map_app, vsum_app, H, S_INR by auto. rn. ring.
Qed.

Lemma norm_scaled c (l l' : list R) : 0 < c -> sumsq l' = c * c * sumsq l -> vnorm l' = c * vnorm l.
Proof.
  intros Hc H. unfold vnorm. rewrite H. rn. rewrite sqrt_mult_alt by nra. rewrite sqrt_square by lra. auto.
Qed.
Lemma shrink_scaled c delta delta' x y : 0 < c -> scalar delta = Ok x -> scalar delta' = Ok (c * x) -> shrink delta' (c * y) = shrink delta y.
Proof.
  intros Hc H H'. unfold shrink. rewrite H, H'. cbn [unwrap]. cbv zeta.
  assert (Hl : nltb (c * y) (c * x) = nltb y x).
  { rn. unfold Rltb. destruct (Rlt_dec (c * y) (c * x)) as [H1|H1], (Rlt_dec y x) as [H2|H2]; auto; exfalso.
    - apply Rmult_lt_reg_l in H1; auto.
    - apply H1. apply Rmult_lt_compat_l; auto. }
  rewrite Hl, (div_k c Hc). auto.
Qed.
Lemma scaled_base c d n n' : 0 < c -> scaled_weight c d n n' -> noise_ok n -> noise_ok n' -> noise_dim n = d /\ noise_dim n' = d /\
  (forall r, length r = d -> sumsq (wl (base n') r) = c * c * sumsq (wl (base n) r)) /\ (forall x, beta n' (c * x) = beta n x) /\ (forall r, length r = d -> alpha n' r = alpha n r).
Proof.
  intros Hc. induction 1 as [n n' H1 H2 H3 H4 H5|n n' delta delta' x H IH E1 E2]; intros Hn Hn'.
  - assert (B1 : base n = n) by (destruct n; auto; destruct H1). assert (B2 : base n' = n') by (destruct n'; auto; destruct H2).
    split; auto. split; auto. split; [|split].
    + intros r Hr. rewrite B1, B2, !precision_form by (auto; congruence). rewrite H3, H4. rewrite <- sumn_scale. apply sumn_ext. intros i Hi. rewrite <- sumn_scale. apply sumn_ext. intros j Hj. rewrite H5; auto. ring.
    + intros x. destruct n, n'; auto; tauto.
    + intros r Hr. destruct n, n'; auto; tauto.
  - destruct Hn as (Hn & _). destruct Hn' as (Hn' & _). destruct (IH Hn Hn') as (D1 & D2 & I1 & I2 & I3). cbn [noise_dim base beta alpha]. split; auto. split; auto. split; auto. split.
    + intros y. rewrite I2, (shrink_scaled c delta delta' x); auto.
    + intros r Hr. rewrite I3 by auto. f_equal. rewrite (norm_scaled c (vscale (alpha n r) (wl (base n) r))); auto; [apply (shrink_scaled c delta delta' x); auto|].
      rewrite !sumsq_scale, I1 by auto. ring.
Qed.
Lemma scaled_model c f f' val old xi : 0 < c -> scaled_factor c E f f' -> factor_ok f -> factor_ok f' ->
  residual_shape_ok E old f -> jacobian_shape_ok E val f -> (forall v, In v (f_vars f) -> length (xi v) = vldim C v) ->
  model_at E val old xi f' = c * c * model_at E val old xi f.
Proof.
  intros Hc ((Hv & Hd & Hf) & Hw) Hok Hok' Hr HJ Hx. destruct (Hf old) as (F1 & _). destruct (Hf val) as (_ & F2).
  destruct (scaled_base _ _ _ _ Hc Hw (proj1 Hok) (proj1 Hok')) as (D1 & D2 & I1 & I2 & I3).
  pose proof Hr as Hr0. unfold residual_shape_ok in Hr0. pose proof HJ as HJ0. unfold jacobian_shape_ok in HJ0.
  rewrite !model_formula; auto; [| unfold residual_shape_ok; rewrite F1, Hd; auto | unfold jacobian_shape_ok; rewrite F2, Hd, Hv; auto | rewrite Hv; auto].
  unfold mixed. rewrite F1, F2, Hd, Hv, I3 by auto.
  rewrite (norm_scaled c (vscale (alpha (f_noise f) (residual_at E old f)) (wl (base (f_noise f)) (residual_at E old f)))); auto.
  - rewrite I2. apply I1. rewrite vadd_length; rewrite !vscale_length; auto; rewrite (pushed_len E) by auto; auto.
  - rewrite !sumsq_scale, I1 by auto. ring.
Qed.
Lemma prop_factors c fs fs' : 0 < c -> (forall f, In f fs -> factor_ok f) -> (forall f, In f fs' -> factor_ok f) -> well_shaped E fs ->
  Forall2 (scaled_factor c E) fs fs' -> proportional_information (c * c) E fs fs'.
Proof.
  intros Hc Hok Hok' Hws HF. split.
  - apply mentioned_same. clear - HF. induction HF; constructor; auto. apply H.
  - intros val old xi A B D.
    assert (Hl : forall f, In f fs -> residual_shape_ok E old f /\ jacobian_shape_ok E val f /\ forall v, In v (f_vars f) -> length (xi v) = vldim C v).
    { intros f Hf. split; [apply (ws_residual E fs Hws); auto|]. split; [apply (ws_jacobian E fs Hws); auto|]. intros v Hv. apply D. apply mentioned_in. eauto. }
    clear - Hc HF Hok Hok' Hl. induction HF as [|f f' l l' H HF IH]; [change (0 = c * c * 0); ring|]. cbn [map]. rewrite !vsum_cons.
    destruct (Hl f) as (H1 & H2 & H3); [left; auto|]. rewrite (scaled_model c f f' val old xi); auto; try (solve [apply Hok; left; auto]); try (solve [apply Hok'; left; auto]).
    rewrite IH; [rn; ring | | |]; intros; [apply Hok | apply Hok' | apply Hl]; right; auto.
Qed.
End Closed.
