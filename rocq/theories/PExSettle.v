(* Bundled statements and concrete instances: pose graphs whose measurements contradict each other. *)
From Coq Require Import String List Arith Bool Lia Reals Lra ZArith.
From Verif Require Import Num NumR Py Arr MLayout MAssign MNoise MSparse MFactor MGraph MLinear MSolver MLie MPose SpecLayout SpecTree SpecAssign SpecNoise SpecGraph SpecSparse SpecDeriv SpecLie SpecPose SpecZero SpecSpatial SpecTwin SpecInv SpecOrder SpecSolver SpecLocal SpecBook SpecSettle Ex ExG ExS.
From Verif Require Import PBase PVec PLie PPose PFrame PZero PAssign PGraph PGraph2 PGraph3 PGraph4 PHold POrder POrder2 PSolverR PTwin PTwin2 PBook PExGraph PExBook PExInv PExZero PSpatial2 PBasin3 PBasin5 PSettle2 PSettle3 PSettle5 PSettle6 PSettle7 PSettle8 PSettle9.
Import ListNotations.
Local Open Scope R_scope.

Lemma settle_gradient : forall groups fs g a vs val x,
  (forall f, In f fs -> pose_factor groups f /\ unit_measurement groups f /\ (exists s, scales (f_noise f) (residual_dim f) s) /\ vnorm (residual_at (pose_env groups) val f) < PI) ->
  (forall v, In v (mentioned fs) -> turning (groups (v_ty v))) -> graph_make (pose_env groups) fs = Ok g ->
  wf_assign (lie_class groups) vs false a -> (forall t, of_type t vs = of_type t (mentioned fs)) ->
  (forall v, In v vs -> get_value (lie_class groups) a v = Ok (val v) /\ unit_pose (groups (v_ty v)) (params (val v))) ->
  length x = l_dim (g_local_layout g) ->
  exists r A grad c, compute_whitened_residual_vector (pose_env groups) g a = Ok r /\ compute_whitened_residual_jacobian (pose_env groups) g a r = Ok A /\
    matmul (transpose A) r = Ok grad /\ length grad = length x /\
    (forall t, exists a' r', manifold_retract (lie_class groups) a (mkAssign (vscale t x) (g_local_layout g)) = Ok a' /\ compute_cost (pose_env groups) g a' = Ok (c t, r')) /\
    derivable_pt_lim c 0 (2 * vdot grad x).
Proof. intros groups fs g a vs val x H Hk Eg Hwf Hty Hget Hx. apply (rotation_gradient groups fs (fun f Hf => proj1 (H f Hf)) Hk g a vs val x); auto. intros f Hf. apply H; auto. Qed.

Lemma settle_step : forall E fs beta val xi, well_posed E fs -> 0 < beta -> (forall v, In v (mentioned fs) -> value_ok (e_cls E (v_ty v)) (val v)) -> damped_step E fs beta val val xi ->
  (agree fs xi (fun v => vzero (vldim (e_cls E) v)) <-> balanced E fs val).
Proof. intros E fs beta val xi WP. apply rest_step; auto. Qed.

Lemma settle_stays : forall E fs g init val, well_posed E fs -> graph_make E fs = Ok g -> assigns E fs init val -> balanced E fs val ->
  (forall v, In v (mentioned fs) -> retract (e_cls E (v_ty v)) (val v) (vzero (vldim (e_cls E) v)) = Ok (val v)) -> stays E fs g init val.
Proof. intros E fs g init val WP Eg Hi HB Hs fuel. apply rest_solves; auto. Qed.

Lemma pose_still groups t p : known (groups t) -> length p = length (lg_one (groups t)) -> retract (e_cls (pose_env groups) t) (group_value t p) (vzero (lg_dim (groups t))) = Ok (group_value t p).
Proof.
  intros Hk Hp. change (Ok (A := pytree R) (group_value t (lie_retract (groups t) (params (group_value t p)) (vzero (lg_dim (groups t))))) = Ok (group_value t p)).
  rewrite params_value. unfold lie_retract, rplus. rewrite (exp_zero_one _ Hk), mul_one; auto.
Qed.
Lemma settle_poses : forall groups fs g init val, (forall f, In f fs -> pose_factor groups f) -> (forall v, In v (mentioned fs) -> planar (groups (v_ty v)) \/ spatial (groups (v_ty v))) ->
  graph_make (pose_env groups) fs = Ok g -> assigns (pose_env groups) fs init val -> balanced (pose_env groups) fs val -> stays (pose_env groups) fs g init val.
Proof.
  intros groups fs g init val Hf Hk Eg Hi HB. assert (Hok : forall f, In f fs -> factor_ok f) by (intros f Hin; eapply pose_factor_ok; eauto).
  destruct (made _ _ _ Hok Eg) as (_ & Hne). pose proof (pose_posed groups fs Hf Hk Hne) as WP. apply settle_stays; auto.
  pose proof WP as [CO _ _ _ _]. destruct Hi as (vs & Hwf & Hin & Hg). intros v Hv. destruct (get_value_ok _ CO vs init v Hwf) as (x & Ex & Hx & _); [apply Hin; auto|]. rewrite Hg in Ex by (apply Hin; auto). injection Ex as <-.
  apply (pose_value_ok groups (v_ty v) (val v)) in Hx. destruct Hx as (p & -> & Lp). apply pose_still; auto. exact (Hk v Hv).
Qed.

(* the cost the code reports *)
Lemma cost_of_assigns E fs g a val : well_posed E fs -> graph_make E fs = Ok g -> assigns E fs a val -> exists r, compute_cost E g a = Ok (cost_at E fs val, r).
Proof.
  intros WP Eg Ha. destruct WP as [CO Hok Hws _ _]. destruct (made E fs g Hok Eg) as (Hg & Hne).
  assert (Hl : forall v, In v (mentioned fs) -> value_ok (e_cls E (v_ty v)) (val v)).
  { destruct Ha as (vs & Hwf & Hin & Hgt). intros v Hv. destruct (get_value_ok _ CO vs a v Hwf) as (x & Ex & Hx & _); [apply Hin; auto|]. rewrite Hgt in Ex by (apply Hin; auto). injection Ex as <-. auto. }
  destruct (one_cost E fs g Hok Hg a val Ha (fun f Hf => ws_residual E fs Hws val f Hl Hf) Hne) as (Hw & Hc). eexists. rewrite Hc. do 2 f_equal.
  rewrite sumsq_dot, rvec_vdot by auto. unfold cost_at. apply vsum_map_ext. intros f Hf.
  destruct (whitened_at_ok E val f) as (w & Ew & _); [apply Hok; auto | apply (ws_residual E fs Hws); auto|]. rewrite Ew. cbn. rewrite sumsq_dot. auto.
Qed.

Lemma multiple_self n : linear_noise n -> noise_ok n -> multiple n 1 n.
Proof. intros L O. split; auto. split; auto. split; auto. intros r w _ ->. rewrite vscale_one. auto. Qed.
Lemma scales_multiple n n' k s s' : s <> 0 -> scales n k s -> scales n' k s' -> multiple n (s' / s) n'.
Proof.
  intros Hs (L & O & D & H) (L' & O' & D' & H'). split; auto. split; auto. split; [congruence|]. intros r w Hr Ew. rewrite D in Hr.
  rewrite H in Ew by auto. injection Ew as <-. rewrite H' by auto. f_equal. rewrite vscale_vscale. f_equal. field. auto.
Qed.

Lemma settle_midpoint : forall groups v mu1 mu2 n0 n1 n2 s1 s2 k, planar (groups (v_ty v)) \/ spatial (groups (v_ty v)) ->
  legal_pose (groups (v_ty v)) mu1 -> legal_pose (groups (v_ty v)) mu2 -> linear_noise n0 -> noise_ok n0 -> noise_dim n0 = lg_dim (groups (v_ty v)) ->
  multiple n0 s1 n1 -> multiple n0 s2 n2 -> 0 < k < 1 -> s1 * s1 * k = s2 * s2 * (1 - k) ->
  forall g init val, graph_make (pose_env groups) (two_priors v mu1 n1 mu2 n2) = Ok g -> assigns (pose_env groups) (two_priors v mu1 n1 mu2 n2) init val ->
    val v = group_value (v_ty v) (on_the_way (groups (v_ty v)) k mu1 mu2) ->
    balanced (pose_env groups) (two_priors v mu1 n1 mu2 n2) val /\ stays (pose_env groups) (two_priors v mu1 n1 mu2 n2) g init val.
Proof.
  intros groups v mu1 mu2 n0 n1 n2 s1 s2 k Hk H1 H2 L0 O0 D0 M1 M2 Hkk Hs g init val Eg Hi Hv.
  assert (HB : balanced (pose_env groups) (two_priors v mu1 n1 mu2 n2) val) by (eapply (two_balanced groups v Hk mu1 mu2 H1 H2 n1 n2 n0 L0 O0 D0 s1 s2 M1 M2 k val); auto).
  split; auto. apply settle_poses; auto; [apply (two_factors groups v mu1 mu2 H1 H2 n1 n2 n0 s1 s2); auto|]. intros u Hu. rewrite mentioned_two in Hu. destruct Hu as [<-|[]]. auto.
Qed.

Lemma two_posed groups v mu1 mu2 n1 n2 s1 s2 : known (groups (v_ty v)) -> legal_pose (groups (v_ty v)) mu1 -> legal_pose (groups (v_ty v)) mu2 -> scales n1 (lg_dim (groups (v_ty v))) s1 -> scales n2 (lg_dim (groups (v_ty v))) s2 ->
  well_posed (pose_env groups) (two_priors v mu1 n1 mu2 n2).
Proof.
  intros Hk H1 H2 (_ & O1 & D1 & _) (_ & O2 & D2 & _). apply pose_posed; [|intros u Hu; rewrite mentioned_two in Hu; destruct Hu as [<-|[]]; auto|discriminate].
  intros f [<-|[<-|[]]]; constructor; auto; eexists; (split; [reflexivity|]); [apply H1 | apply H2].
Qed.
Lemma settle_iso groups v mu1 mu2 n1 n2 s1 s2 k g a val : known (groups (v_ty v)) -> legal_pose (groups (v_ty v)) mu1 -> legal_pose (groups (v_ty v)) mu2 ->
  scales n1 (lg_dim (groups (v_ty v))) s1 -> scales n2 (lg_dim (groups (v_ty v))) s2 -> 0 < k < 1 -> s1 * s1 * k = s2 * s2 * (1 - k) -> s1 <> 0 ->
  graph_make (pose_env groups) (two_priors v mu1 n1 mu2 n2) = Ok g -> assigns (pose_env groups) (two_priors v mu1 n1 mu2 n2) a val -> val v = group_value (v_ty v) (on_the_way (groups (v_ty v)) k mu1 mu2) ->
  stays (pose_env groups) (two_priors v mu1 n1 mu2 n2) g a val.
Proof.
  intros Hk H1 H2 S1 S2 Hkk Hs Hn Eg Ha Hv. pose proof S1 as (L1 & O1 & D1 & _).
  eapply (settle_midpoint groups v mu1 mu2 n1 n1 n2 1 (s2 / s1) k); eauto; [apply multiple_self; auto | eapply scales_multiple; eauto|].
  apply (Rmult_eq_reg_l (s1 * s1)); [|intros H0; apply Rmult_integral in H0; tauto]. transitivity (s1 * s1 * k); [ring|]. rewrite Hs. field. auto.
Qed.

Lemma settle_rotations : forall groups v mu1 mu2 n1 n2 s1 s2 k, turning (groups (v_ty v)) ->
  legal_pose (groups (v_ty v)) mu1 -> legal_pose (groups (v_ty v)) mu2 -> scales n1 (lg_dim (groups (v_ty v))) s1 -> scales n2 (lg_dim (groups (v_ty v))) s2 ->
  s1 <> 0 -> 0 < k < 1 -> s1 * s1 * k = s2 * s2 * (1 - k) ->
  forall g a val, graph_make (pose_env groups) (two_priors v mu1 n1 mu2 n2) = Ok g -> assigns (pose_env groups) (two_priors v mu1 n1 mu2 n2) a val ->
    val v = group_value (v_ty v) (on_the_way (groups (v_ty v)) k mu1 mu2) ->
    stays (pose_env groups) (two_priors v mu1 n1 mu2 n2) g a val /\
    forall b val' x, assigns (pose_env groups) (two_priors v mu1 n1 mu2 n2) b val' -> val' v = group_value (v_ty v) x -> legal_pose (groups (v_ty v)) x ->
      exists c c' r r', compute_cost (pose_env groups) g a = Ok (c, r) /\ compute_cost (pose_env groups) g b = Ok (c', r') /\ c <= c'.
Proof.
  intros groups v mu1 mu2 n1 n2 s1 s2 k Ht H1 H2 S1 S2 Hn Hkk Hs g a val Eg Ha Hv. pose proof (turning_known _ Ht) as Hk. split; [eapply settle_iso; eauto|].
  intros b val' x Hb Hv' Hx. pose proof (two_posed groups v mu1 mu2 n1 n2 s1 s2 Hk H1 H2 S1 S2) as WP.
  destruct (cost_of_assigns _ _ g a val WP Eg Ha) as (r & Ec). destruct (cost_of_assigns _ _ g b val' WP Eg Hb) as (r' & Ec').
  eexists _, _, r, r'. split; [exact Ec|]. split; [exact Ec'|]. apply (turning_least groups v Hk mu1 mu2 H1 H2 n1 n2 s1 s2 S1 S2 k Hkk Hs x); auto.
Qed.

Lemma two_start groups v mu1 mu2 n1 n2 x : known (groups (v_ty v)) -> length x = length (lg_one (groups (v_ty v))) ->
  exists b, make_from_dict (lie_class groups) [(v, group_value (v_ty v) x)] = Ok b /\ assigns (pose_env groups) (two_priors v mu1 n1 mu2 n2) b (fun _ => group_value (v_ty v) x) /\
    forall g, well_posed (pose_env groups) (two_priors v mu1 n1 mu2 n2) -> graph_make (pose_env groups) (two_priors v mu1 n1 mu2 n2) = Ok g -> same_layout (as_layout b) (g_layout g).
Proof.
  intros Hk Hx. destruct (dict_values (lie_class groups) (pose_classes groups) [(v, group_value (v_ty v) x)]) as (b & Eb & Hwf & Hg & _).
  - repeat constructor; simpl; tauto.
  - discriminate.
  - intros u y [Hu|[]]. injection Hu as <- <-. apply pose_value_ok. exists x. auto.
  - exists b. split; auto. cbn [map fst] in Hwf. split.
    + exists [v]. split; auto. rewrite mentioned_two. split; [tauto|]. intros u [<-|[]]. apply Hg. left; auto.
    + intros g [_ Hok _ _ _] Eg. destruct (made _ _ _ Hok Eg) as (Ig & _). rewrite (ig_layout _ _ _ Ig). unfold graph_layout. rewrite mentioned_two. destruct Hwf as (_ & -> & _). repeat (split; [reflexivity|]); reflexivity.
Qed.

Lemma settle_cheaper : forall groups v mu1 mu2 n1 n2 s1 s2 k, moving (groups (v_ty v)) ->
  legal_pose (groups (v_ty v)) mu1 -> legal_pose (groups (v_ty v)) mu2 -> scales n1 (lg_dim (groups (v_ty v))) s1 -> scales n2 (lg_dim (groups (v_ty v))) s2 ->
  s1 <> 0 -> 0 < k < 1 -> s1 * s1 * k = s2 * s2 * (1 - k) ->
  (let d := lg_log (groups (v_ty v)) (lg_mul (groups (v_ty v)) (lg_inv (groups (v_ty v)) mu1) mu2) in cross (axis (groups (v_ty v)) d) (slide (groups (v_ty v)) d) <> [0; 0; 0]) ->
  forall g a val, graph_make (pose_env groups) (two_priors v mu1 n1 mu2 n2) = Ok g -> assigns (pose_env groups) (two_priors v mu1 n1 mu2 n2) a val ->
    val v = group_value (v_ty v) (on_the_way (groups (v_ty v)) k mu1 mu2) ->
    stays (pose_env groups) (two_priors v mu1 n1 mu2 n2) g a val /\
    exists x b c c' r r', legal_pose (groups (v_ty v)) x /\ make_from_dict (lie_class groups) [(v, group_value (v_ty v) x)] = Ok b /\
      compute_cost (pose_env groups) g a = Ok (c, r) /\ compute_cost (pose_env groups) g b = Ok (c', r') /\ c' < c.
Proof.
  intros groups v mu1 mu2 n1 n2 s1 s2 k Hm H1 H2 S1 S2 Hn Hkk Hs Hd g a val Eg Ha Hv. pose proof (moving_known _ Hm) as Hk. split; [eapply settle_iso; eauto|].
  destruct (cheaper groups v Hm mu1 mu2 H1 H2 n1 n2 s1 s2 S1 S2 k Hkk Hn Hd) as (x & Hx & Hc). pose proof (two_posed groups v mu1 mu2 n1 n2 s1 s2 Hk H1 H2 S1 S2) as WP.
  destruct (two_start groups v mu1 mu2 n1 n2 x Hk (proj1 Hx)) as (b & Eb & Hb & _).
  destruct (cost_of_assigns _ _ g a val WP Eg Ha) as (r & Ec). destruct (cost_of_assigns _ _ g b _ WP Eg Hb) as (r' & Ec').
  eexists x, b, _, _, r, r'. split; [exact Hx|]. split; auto. split; [exact Ec|]. split; [exact Ec'|]. apply Hc; auto.
Qed.

(* ---- one pose in the plane, measured twice: at the origin, and a quarter turn and (1, 1) away ---- *)
Definition one3 : noise R := DiagGaussian (mkArr [3%nat] [1; 1; 1]).
Definition two3 : noise R := DiagGaussian (mkArr [3%nat] [2; 2; 2]).
Lemma diag3_scales s : scales (DiagGaussian (mkArr [3%nat] [s; s; s])) 3 s.
Proof.
  split; [exact I|]. split; [split; [reflexivity | exists 3%nat; reflexivity]|]. split; [reflexivity|]. intros r Hr. do 3 (destruct r as [|? r]; [discriminate|]). destruct r; [|discriminate].
  cbn. reflexivity.
Qed.
Definition corner : list R := [0; 1; 1; 1].
Definition ex_clash : list (factor R) := two_priors pa [1; 0; 0; 0] one3 corner one3.
Lemma se2_legal p : length p = 4%nat -> norm2 p = 1 -> legal_pose raw_se2 p.
Proof. intros Hl Hn. split; auto. split; auto. intros Hs. exfalso. eapply not_both; [apply planar_se2 | exact Hs]. Qed.
Lemma so3_legal p : length p = 4%nat -> norm4 p = 1 -> legal_pose raw_so3 p.
Proof. intros Hl Hn. split; auto. split; auto. intros Hs. exfalso. eapply not_both; [exact Hs | apply spatial_so3]. Qed.
Lemma atan2_quarter : atan2 1 0 = PI / 2.
Proof. pose proof PI_RGT_0. rewrite <- (atan2_angle (PI / 2)) by lra. rewrite cos_PI2, sin_PI2. auto. Qed.

Lemma ex_crossed : let d := lg_log raw_se2 (lg_mul raw_se2 (lg_inv raw_se2 [1; 0; 0; 0]) corner) in cross (axis raw_se2 d) (slide raw_se2 d) <> [0; 0; 0].
Proof.
  assert (Ed : lg_log raw_se2 (lg_mul raw_se2 (lg_inv raw_se2 [1; 0; 0; 0]) corner) = [PI / 2; 0; PI / 2]).
  { cbn. unfold se2_log, se2_mul, se2_inv, corner. cbn [nth]. match goal with |- context [atan2 ?x ?y] => replace x with 1 by ring; replace y with 0 by ring end. rewrite atan2_quarter. unfold v_a. pose proof PI_RGT_0 as Hp.
    destruct (Req_EM_T (PI / 2) 0) as [H|_]; [lra|]. rewrite sin_PI2, cos_PI2. lists; field. }
  intros d. unfold d. rewrite Ed. cbn. pose proof PI_RGT_0 as Hp. intros H. injection H as _ H _. nra.
Qed.

Lemma ex_clash_ok : moving (ex_groups (v_ty pa)) /\ legal_pose (ex_groups (v_ty pa)) [1; 0; 0; 0] /\ legal_pose (ex_groups (v_ty pa)) corner /\
  scales one3 (lg_dim (ex_groups (v_ty pa))) 1 /\ 0 < 1 / 2 < 1 /\ 1 * 1 * (1 / 2) = 1 * 1 * (1 - 1 / 2) /\
  (let d := lg_log (ex_groups (v_ty pa)) (lg_mul (ex_groups (v_ty pa)) (lg_inv (ex_groups (v_ty pa)) [1; 0; 0; 0]) corner) in
   cross (axis (ex_groups (v_ty pa)) d) (slide (ex_groups (v_ty pa)) d) <> [0; 0; 0]) /\
  exists g a, graph_make (pose_env ex_groups) ex_clash = Ok g /\
    assigns (pose_env ex_groups) ex_clash a (fun _ => group_value (v_ty pa) (on_the_way (ex_groups (v_ty pa)) (1 / 2) [1; 0; 0; 0] corner)) /\ same_layout (as_layout a) (g_layout g).
Proof.
  assert (L1 : legal_pose raw_se2 [1; 0; 0; 0]) by (apply se2_legal; [reflexivity | unfold norm2; cbn; ring]).
  assert (L2 : legal_pose raw_se2 corner) by (apply se2_legal; [reflexivity | unfold norm2; cbn; ring]).
  split; [constructor|]. split; [exact L1|]. split; [exact L2|]. split; [apply diag3_scales|]. split; [lra|]. split; [lra|]. split; [exact ex_crossed|].
  destruct (graph_make (pose_env ex_groups) ex_clash) as [g|] eqn:Eg; [|discriminate].
  destruct (two_start ex_groups pa [1; 0; 0; 0] corner one3 one3 (on_the_way (ex_groups (v_ty pa)) (1 / 2) [1; 0; 0; 0] corner)) as (b & _ & Hb & Hl); [left; constructor | reflexivity|].
  exists g, b. split; auto. split; [exact Hb|]. apply Hl; auto. apply (two_posed ex_groups pa _ _ one3 one3 1 1); auto; [left; constructor | apply diag3_scales | apply diag3_scales].
Qed.

Lemma minimum_fails : exists fs g a val b c c' r r', (forall f, In f fs -> pose_factor ex_groups f /\ unit_measurement ex_groups f /\ informative (f_noise f)) /\ graph_make (pose_env ex_groups) fs = Ok g /\
  assigns (pose_env ex_groups) fs a val /\ same_layout (as_layout a) (g_layout g) /\ stays (pose_env ex_groups) fs g a val /\
  compute_cost (pose_env ex_groups) g a = Ok (c, r) /\ compute_cost (pose_env ex_groups) g b = Ok (c', r') /\ c' < c.
Proof.
  destruct ex_clash_ok as (Hm & L1 & L2 & S1 & Hk & Hs & Hd & g & a & Eg & Ha & Hl).
  destruct (settle_cheaper ex_groups pa [1; 0; 0; 0] corner one3 one3 1 1 (1 / 2) Hm L1 L2 S1 S1 ltac:(lra) Hk Hs Hd g a _ Eg Ha eq_refl) as (HS & x & b & c & c' & r & r' & _ & _ & E1 & E2 & Hc).
  exists ex_clash, g, a, (fun _ => group_value (v_ty pa) (on_the_way (ex_groups (v_ty pa)) (1 / 2) [1; 0; 0; 0] corner)), b, c, c', r, r'.
  split; [|do 7 (split; auto)]. intros f Hf. assert (Hn : informative one3) by (repeat (constructor; [lra|]); constructor). destruct S1 as (_ & O1 & D1 & _).
  destruct Hf as [<-|[<-|[]]]; (split; [constructor; auto; eexists; (split; [reflexivity|]); reflexivity|]); (split; [|exact Hn]); intros v y [<-|[]] [<-|[]]; [apply L1 | apply L2].
Qed.

(* uneven noise: the same measurements, the second twice as precise in every direction *)
Definition uneven (s : R) : noise R := DiagGaussian (mkArr [3%nat] [s; 3 * s; s / 2]).
Lemma ex_uneven : linear_noise (uneven 1) /\ noise_ok (uneven 1) /\ noise_dim (uneven 1) = lg_dim (ex_groups (v_ty pa)) /\ multiple (uneven 1) 1 (uneven 1) /\ multiple (uneven 1) 2 (uneven 2) /\ 1 * 1 * (4 / 5) = 2 * 2 * (1 - 4 / 5) /\
  exists g a, graph_make (pose_env ex_groups) (two_priors pa [1; 0; 0; 0] (uneven 1) corner (uneven 2)) = Ok g /\
    assigns (pose_env ex_groups) (two_priors pa [1; 0; 0; 0] (uneven 1) corner (uneven 2)) a (fun _ => group_value (v_ty pa) (on_the_way (ex_groups (v_ty pa)) (4 / 5) [1; 0; 0; 0] corner)).
Proof.
  assert (O : forall s, noise_ok (uneven s)) by (intros s; split; [reflexivity | exists 3%nat; reflexivity]).
  split; [exact I|]. split; [apply O|]. split; [reflexivity|]. split; [apply multiple_self; [exact I | apply O]|]. split; [|split; [lra|]].
  - split; [exact I|]. split; [apply O|]. split; [reflexivity|]. intros r w Hr Ew. cbn in Hr. do 3 (destruct r as [|? r]; [discriminate|]). destruct r; [|discriminate].
    cbn in Ew. injection Ew as <-. cbn. apply f_equal. lists; field.
  - destruct (graph_make (pose_env ex_groups) (two_priors pa [1; 0; 0; 0] (uneven 1) corner (uneven 2))) as [g|] eqn:Eg; [|discriminate].
    destruct (two_start ex_groups pa [1; 0; 0; 0] corner (uneven 1) (uneven 2) (on_the_way (ex_groups (v_ty pa)) (4 / 5) [1; 0; 0; 0] corner)) as (b & _ & Hb & _); [left; constructor | reflexivity|].
    exists g, b. auto.
Qed.

(* ---- one rotation in space, measured twice ---- *)
Definition tilt : list R := [3/5; 0; 0; 4/5].
Definition ex_tilt : list (factor R) := two_priors qv [1; 0; 0; 0] one3 tilt two3.
Lemma ex_tilt_ok : turning (ex_groups (v_ty qv)) /\ legal_pose (ex_groups (v_ty qv)) [1; 0; 0; 0] /\ legal_pose (ex_groups (v_ty qv)) tilt /\
  scales one3 (lg_dim (ex_groups (v_ty qv))) 1 /\ scales two3 (lg_dim (ex_groups (v_ty qv))) 2 /\ 0 < 4 / 5 < 1 /\ 1 * 1 * (4 / 5) = 2 * 2 * (1 - 4 / 5) /\
  (exists g a, graph_make (pose_env ex_groups) ex_tilt = Ok g /\
    assigns (pose_env ex_groups) ex_tilt a (fun _ => group_value (v_ty qv) (on_the_way (ex_groups (v_ty qv)) (4 / 5) [1; 0; 0; 0] tilt)) /\ same_layout (as_layout a) (g_layout g)).
Proof.
  assert (L1 : legal_pose raw_so3 [1; 0; 0; 0]) by (apply so3_legal; [reflexivity | unfold norm4; cbn; ring]).
  assert (L2 : legal_pose raw_so3 tilt) by (apply so3_legal; [reflexivity | unfold norm4; cbn; lra]).
  split; [constructor|]. split; [exact L1|]. split; [exact L2|]. split; [apply diag3_scales|]. split; [apply diag3_scales|]. split; [lra|]. split; [lra|].
  destruct (graph_make (pose_env ex_groups) ex_tilt) as [g|] eqn:Eg; [|discriminate].
  destruct (two_start ex_groups qv [1; 0; 0; 0] tilt one3 two3 (on_the_way (ex_groups (v_ty qv)) (4 / 5) [1; 0; 0; 0] tilt)) as (b & _ & Hb & Hl); [right; constructor | reflexivity|].
  exists g, b. split; auto. split; [exact Hb|]. apply Hl; auto. apply (two_posed ex_groups qv _ _ one3 two3 1 2); auto; [right; constructor | apply diag3_scales | apply diag3_scales].
Qed.

(* the gradient, at the first of the two measurements *)
Lemma ex_slope : (forall f, In f ex_tilt -> pose_factor ex_groups f /\ unit_measurement ex_groups f /\ (exists s, scales (f_noise f) (residual_dim f) s) /\
    vnorm (residual_at (pose_env ex_groups) (fun _ => group_value 3%nat [1; 0; 0; 0]) f) < PI) /\
  (forall v, In v (mentioned ex_tilt) -> turning (ex_groups (v_ty v))) /\
  exists g a, graph_make (pose_env ex_groups) ex_tilt = Ok g /\ wf_assign (lie_class ex_groups) [qv] false a /\ (forall t, of_type t [qv] = of_type t (mentioned ex_tilt)) /\
    forall v, In v [qv] -> get_value (lie_class ex_groups) a v = Ok (group_value 3%nat [1; 0; 0; 0]) /\ unit_pose (ex_groups (v_ty v)) (params (group_value 3%nat [1; 0; 0; 0])).
Proof.
  destruct ex_tilt_ok as (_ & L1 & L2 & S1 & S2 & _). pose proof PI_RGT_0 as Hp.
  assert (Hb : forall q, length q = 4%nat -> norm4 q = 1 -> 0 < q.[0] -> vnorm (quat_log q) < PI).
  { intros q Hl Hn Hq. rewrite norm_len by reflexivity. rewrite quat_angle by auto. rewrite Rabs_pos_eq by lra. assert (Hq1 : q.[0] <= 1) by (unfold norm4 in Hn; nra).
    destruct (Rlt_dec (acos q.[0]) (PI / 2)) as [|Hge]; [lra|]. exfalso. pose proof (acos_bound q.[0]) as HB. assert (cos (acos q.[0]) <= 0) by (apply cos_le_0; lra). rewrite cos_acos in H by lra. lra. }
  split; [|split].
  - intros f Hf. pose proof S1 as (_ & O1 & D1 & _). pose proof S2 as (_ & O2 & D2 & _).
    destruct Hf as [<-|[<-|[]]]; (split; [constructor; auto; eexists; (split; [reflexivity|]); reflexivity|]); (split; [intros v y [<-|[]] [<-|[]]; [apply L1 || apply L2]|]); (split; [eexists; first [exact S1 | exact S2]|]).
    + apply (Hb (quat_mul (quat_conj [1; 0; 0; 0]) [1; 0; 0; 0])); [reflexivity | |]; unfold norm4; cbn; lra.
    + apply (Hb (quat_mul (quat_conj [1; 0; 0; 0]) tilt)); [reflexivity | |]; unfold norm4; cbn; lra.
  - intros v [<-|[]]. constructor.
  - destruct (graph_make (pose_env ex_groups) ex_tilt) as [g|] eqn:Eg; [|discriminate].
    exists g, (mkAssign [1; 0; 0; 0] (make_layout (lie_class ex_groups) [qv] false)). split; auto. split; [split; [repeat constructor; simpl; intuition discriminate | split; reflexivity]|]. split; [reflexivity|].
    intros v [<-|[]]. split; [reflexivity | apply L1].
Qed.
