(* Bundled statements and concrete instances for one pose with an outlier. *)
From Coq Require Import List Arith Bool Lia Permutation Reals Lra ZArith.
From Verif Require Import Num NumR Py Arr MLayout MAssign MNoise MSparse MFactor MGraph MLinear MSolver MLie MPose SpecLayout SpecTree SpecAssign SpecGraph SpecSparse SpecNoise SpecDeriv SpecInv SpecSolver SpecTwin SpecLie SpecPose SpecBook SpecOutlier.
From Verif Require Import PBase PVec PLayout PNoise PGraph PHold PSolver PSolver2 PSolverR PDescent PTotal PPose PExAssign PExGraph PExScript PBook PExBook POutlier POutlier2.
Import ListNotations.
Local Open Scope R_scope.

Section Pose.
Variable groups : vty -> lie_ops R (list R).
Variable v : var.
Hypothesis Hse2 : groups (v_ty v) = raw_se2.
Notation E := (pose_env groups).

Lemma value_xy a b : pose_value groups (v_ty v) (at_xy (v_ty v) a b).
Proof. exists [1; 0; a; b]. split; auto. rewrite Hse2. reflexivity. Qed.
Lemma unit_ok : noise_ok unit_noise. Proof. split; [reflexivity | exists 3%nat; reflexivity]. Qed.
Lemma huber_ok delta : noise_ok (huber_noise delta). Proof. split; [apply unit_ok | split; reflexivity]. Qed.

Section Obs.
Variables (x y : R) (n : noise R) (m : nat) (fs : list (factor R)).
Hypothesis Hfs : observations v m (seen_at v x y n) fs.
Hypothesis Hn : noise_ok n.
Hypothesis Hnd : noise_dim n = 3%nat.

Lemma obs_posed : well_posed E fs.
Proof.
  apply pose_posed.
  - intros f Hf. apply (Permutation_in _ Hfs) in Hf. destruct Hf as [<-|Hf].
    + constructor; auto; [apply value_xy | rewrite Hse2; auto].
    + apply repeat_spec in Hf. subst f. constructor; [apply value_xy | apply unit_ok | rewrite Hse2; reflexivity].
  - intros u Hu. apply (obs_mentioned v x y n m fs Hfs) in Hu. subst u. left. rewrite Hse2. constructor.
  - intros ->. apply Permutation_nil in Hfs. discriminate.
Qed.
Lemma obs_start : exists g init, graph_make E fs = Ok g /\ make_from_defaults (lie_class groups) [v] = Ok init /\
  assigns E fs init (fun _ => at_xy (v_ty v) 0 0) /\ same_layout (as_layout init) (g_layout g).
Proof.
  pose proof obs_posed as WP. destruct (PExInv.posed_graph E fs WP) as (_ & (g & Eg) & _). destruct (bk_parts E fs g WP Eg) as (CO & _ & _ & Hg & _).
  destruct (defaults_values (lie_class groups) CO [v]) as (_ & init & Ei & Hwf & Hv); [repeat constructor; auto | discriminate|].
  exists g, init. split; auto. split; auto. split.
  - exists [v]. split; auto. split.
    + intros u. rewrite (obs_mentioned v x y n m fs Hfs). cbn. intuition.
    + intros u Hu. change (get_value (lie_class groups) init u = Ok (at_xy (v_ty v) 0 0)). rewrite Hv by auto. destruct Hu as [<-|[]]. unfold lie_class. cbn [vc_default]. unfold lie_default. rewrite Hse2. reflexivity.
  - rewrite (ig_layout _ _ _ Hg). unfold graph_layout. rewrite (obs_only v x y n m fs Hfs). destruct Hwf as (_ & -> & _). repeat split; auto.
Qed.
Lemma obs_value a val : assigns E fs a val -> get_value (lie_class groups) a v = Ok (val v).
Proof. intros (vs & _ & H1 & H2). apply H2, H1, (obs_mentioned v x y n m fs Hfs). auto. Qed.

(* a sequence of positions followed by the turns *)
Lemma follow (pos : nat -> R * R) :
  (forall k val val', val v = at_xy (v_ty v) (fst (pos k)) (snd (pos k)) -> gauss_newton_turn E fs val val' -> val' v = at_xy (v_ty v) (fst (pos (S k))) (snd (pos (S k)))) ->
  forall k j val val', turns (gauss_newton_turn E fs) k val val' -> val v = at_xy (v_ty v) (fst (pos j)) (snd (pos j)) -> val' v = at_xy (v_ty v) (fst (pos (j + k)%nat)) (snd (pos (j + k)%nat)).
Proof.
  intros Hst k j val val' H. revert j. induction H as [val|k val val1 val' H1 H IH]; intros j Hj; [rewrite Nat.add_0_r; auto|].
  rewrite <- Nat.add_succ_comm. apply IH. eapply Hst; eauto.
Qed.
Lemma followed (pos : nat -> R * R) : pos O = (0, 0) ->
  (forall k val val', val v = at_xy (v_ty v) (fst (pos k)) (snd (pos k)) -> gauss_newton_turn E fs val val' -> val' v = at_xy (v_ty v) (fst (pos (S k))) (snd (pos (S k)))) ->
  exists g init, graph_make E fs = Ok g /\ make_from_defaults (lie_class groups) [v] = Ok init /\
  (forall unroll it fuel, (1 <= it)%Z -> (Z.to_nat it <= fuel)%nat ->
     exists a, fixed_solve E fuel unroll it cholmod_solve g init = Some (Ok a) /\
       get_value (lie_class groups) a v = Ok (at_xy (v_ty v) (fst (pos (Z.to_nat it))) (snd (pos (Z.to_nat it))))) /\
  (forall cfg fuel, (iteration_cap (max_iterations cfg) <= fuel)%nat ->
     exists a k, gn_solve E fuel cfg cholmod_solve g init = Some (Ok a) /\ (1 <= k <= iteration_cap (max_iterations cfg))%nat /\
       get_value (lie_class groups) a v = Ok (at_xy (v_ty v) (fst (pos k)) (snd (pos k)))).
Proof.
  intros H0 Hst. destruct obs_start as (g & init & Eg & Ei & Ha & Hl). exists g, init. split; auto. split; auto. pose proof (follow pos Hst) as Hf.
  split.
  - intros unroll it fuel Hit Hfu. destruct (fixed_solves E fs g obs_posed Eg fuel unroll it init _ Ha Hl Hit Hfu) as (a & val' & H1 & H2 & H3).
    exists a. split; auto. rewrite (obs_value _ _ H3). f_equal. apply (Hf _ 0%nat _ _ H2). rewrite H0. reflexivity.
  - intros cfg fuel Hfu. destruct (gn_solves E fs g obs_posed Eg cfg fuel init _ Ha Hfu) as (a & k & val' & H1 & Hk & H2 & H3).
    exists a, k. split; auto. split; auto. rewrite (obs_value _ _ H3). f_equal. apply (Hf _ 0%nat _ _ H2). rewrite H0. reflexivity.
Qed.
End Obs.

Lemma gauss_outlier x y m fs : observations v m (seen_at v x y unit_noise) fs ->
  exists g init, graph_make E fs = Ok g /\ make_from_defaults (lie_class groups) [v] = Ok init /\
  (forall unroll it fuel, (1 <= it)%Z -> (Z.to_nat it <= fuel)%nat ->
     exists a, fixed_solve E fuel unroll it cholmod_solve g init = Some (Ok a) /\
       get_value (lie_class groups) a v = Ok (at_xy (v_ty v) (share_after m (Z.to_nat it) * x) (share_after m (Z.to_nat it) * y))) /\
  (forall cfg fuel, (iteration_cap (max_iterations cfg) <= fuel)%nat ->
     exists a k, gn_solve E fuel cfg cholmod_solve g init = Some (Ok a) /\ (1 <= k <= iteration_cap (max_iterations cfg))%nat /\
       get_value (lie_class groups) a v = Ok (at_xy (v_ty v) (share_after m k * x) (share_after m k * y))).
Proof.
  intros Hfs. apply (followed x y unit_noise m fs Hfs unit_ok eq_refl (fun k => (share m k * x, share m k * y))).
  - unfold share. cbn [pow]. f_equal; field; pose proof (pos_INR m); lra.
  - intros k val val' Hv Ht. cbn [fst snd] in *.
    pose proof (obs_turn groups v Hse2 x y unit_noise m fs Hfs eq_refl val val' _ _ 1 1 Hv (unit_weighs [x - share m k * x; y - share m k * y; 0] eq_refl) Ht) as H. cbn zeta in H.
    rewrite H, <- share_step. f_equal; [replace (x - share m k * x) with ((1 - share m k) * x) by ring | replace (y - share m k * y) with ((1 - share m k) * y) by ring]; field; pose proof (pos_INR m); lra.
Qed.

Lemma away_norm x y t : let D := vnorm [x; y] in 0 < D -> 0 <= D - t -> vnorm [x - t / D * x; y - t / D * y; 0] = D - t.
Proof.
  intros D HD Ht. assert (HD2 : D * D = x * x + y * y). { unfold D. rewrite (proj2 (vnorm_sq [x; y])), !sumsq_cons. change (sumsq (@nil R)) with 0. ring. }
  apply vnorm_eq; auto. rewrite sumsq_dot, !vdot_cons, vdot_nil_l.
  replace ((x - t / D * x) * (x - t / D * x) + ((y - t / D * y) * (y - t / D * y) + (0 * 0 + 0))) with ((x * x + y * y) * ((1 - t / D) * (1 - t / D))) by ring.
  rewrite <- HD2. field. lra.
Qed.
Lemma huber_outlier x y delta m fs X : (1 <= m)%nat -> 0 < delta -> rest_point m delta (vnorm [x; y]) X -> observations v m (seen_at v x y (huber_noise delta)) fs ->
  exists (travel : nat -> R) g init, graph_make E fs = Ok g /\ make_from_defaults (lie_class groups) [v] = Ok init /\
  (forall k, (1 <= k)%nat -> 0 < travel k <= X /\ X - travel k <= X * ((1 + damping) / (INR m + 1 + damping)) ^ k) /\
  (forall unroll it fuel, (1 <= it)%Z -> (Z.to_nat it <= fuel)%nat ->
     exists a, fixed_solve E fuel unroll it cholmod_solve g init = Some (Ok a) /\
       get_value (lie_class groups) a v = Ok (at_xy (v_ty v) (travel (Z.to_nat it) / vnorm [x; y] * x) (travel (Z.to_nat it) / vnorm [x; y] * y))) /\
  (forall cfg fuel, (iteration_cap (max_iterations cfg) <= fuel)%nat ->
     exists a k, gn_solve E fuel cfg cholmod_solve g init = Some (Ok a) /\ (1 <= k <= iteration_cap (max_iterations cfg))%nat /\
       get_value (lie_class groups) a v = Ok (at_xy (v_ty v) (travel k / vnorm [x; y] * x) (travel k / vnorm [x; y] * y))).
Proof.
  intros Hm Hd HX Hfs. set (D := vnorm [x; y]) in *. set (tr := travel m delta D).
  assert (HD : 0 < D) by (destruct HX; lra).
  destruct (followed x y (huber_noise delta) m fs Hfs (huber_ok delta) eq_refl (fun k => (tr k / D * x, tr k / D * y))) as (g & init & H1 & H2 & H3 & H4).
  - unfold tr. cbn [travel]. f_equal; field; lra.
  - intros k val val' Hv Ht. cbn [fst snd] in *. destruct (travel_ok m delta D Hm Hd X HX k) as ((T0 & T1) & _). fold tr in T0, T1.
    assert (Hdn : delta <= D - tr k) by (destruct HX as (_ & ? & _); lra).
    assert (Hnm : vnorm [x - tr k / D * x; y - tr k / D * y; 0] = D - tr k) by (apply (away_norm x y (tr k)); fold D; lra).
    pose proof (huber_weighs delta [x - tr k / D * x; y - tr k / D * y; 0] Hd eq_refl) as Hw. rewrite Hnm in Hw. specialize (Hw Hdn).
    pose proof (obs_turn groups v Hse2 x y (huber_noise delta) m fs Hfs eq_refl val val' _ _ _ _ Hv Hw Ht) as H. cbn zeta in H. rewrite H.
    assert (Htr : tr (S k) = advance m delta D (tr k)) by reflexivity. rewrite Htr. unfold advance, weight.
    set (q := sqrt (delta / (D - tr k))). set (s := sqrt q).
    assert (HK : INR m + s * s + 1 / 100000 <> 0) by (pose proof (pos_INR m); pose proof (Rle_0_sqr s) as P; unfold Rsqr in P; lra).
    f_equal; field; split; auto; lra.
  - exists tr, g, init. split; auto. split; auto. split; auto. intros k Hk. destruct (travel_ok m delta D Hm Hd X HX k) as ((T0 & T1) & T2 & T3). fold tr in T0, T1, T2, T3.
    split; [split; auto|]. exact T2.
Qed.
Lemma error_xy a b : pose_error (at_xy (v_ty v) a b) = vnorm [a; b].
Proof.
  unfold pose_error, at_xy. rewrite params_value, log_shift. destruct (vnorm_sq [a; b]) as (H1 & H2). apply vnorm_eq; auto. rewrite H2, !sumsq_cons. change (sumsq (@nil R)) with 0. ring.
Qed.
Lemma norm_times c a b : 0 <= c -> vnorm [c * a; c * b] = c * vnorm [a; b].
Proof. intros Hc. change [c * a; c * b] with (vscale c [a; b]). apply vnorm_scale. auto. Qed.
End Pose.

Lemma gaussian_outlier : forall groups v x y m fs, groups (v_ty v) = raw_se2 -> observations v m (seen_at v x y unit_noise) fs ->
  exists g init, graph_make (pose_env groups) fs = Ok g /\ make_from_defaults (lie_class groups) [v] = Ok init /\
  (forall unroll it fuel, (1 <= it)%Z -> (Z.to_nat it <= fuel)%nat ->
     exists a, fixed_solve (pose_env groups) fuel unroll it cholmod_solve g init = Some (Ok a) /\
       get_value (lie_class groups) a v = Ok (at_xy (v_ty v) (share_after m (Z.to_nat it) * x) (share_after m (Z.to_nat it) * y))) /\
  (forall cfg fuel, (iteration_cap (max_iterations cfg) <= fuel)%nat ->
     exists a k, gn_solve (pose_env groups) fuel cfg cholmod_solve g init = Some (Ok a) /\ (1 <= k <= iteration_cap (max_iterations cfg))%nat /\
       get_value (lie_class groups) a v = Ok (at_xy (v_ty v) (share_after m k * x) (share_after m k * y))).
Proof. intros. apply gauss_outlier; auto. Qed.
Lemma rest_points : forall m delta D, (1 <= m)%nat -> 0 < delta -> delta + delta / INR m <= D ->
  exists X, rest_point m delta D X /\ delta / INR m <= X /\ forall Y, rest_point m delta D Y -> Y = X.
Proof.
  intros m delta D Hm Hd HD. destruct (rest_exists m delta D Hm Hd HD) as (X & HX). exists X. split; auto. split; [apply (rest_low m delta D Hm Hd X HX)|].
  intros Y HY. apply (rest_unique m delta D Hm Hd); auto.
Qed.
Lemma huber_outliers : forall groups v x y delta m fs X, groups (v_ty v) = raw_se2 -> (1 <= m)%nat -> 0 < delta ->
  rest_point m delta (vnorm [x; y]) X -> observations v m (seen_at v x y (huber_noise delta)) fs ->
  exists (travel : nat -> R) g init, graph_make (pose_env groups) fs = Ok g /\ make_from_defaults (lie_class groups) [v] = Ok init /\
  (forall k, (1 <= k)%nat -> 0 < travel k <= X /\ X - travel k <= X * ((1 + damping) / (INR m + 1 + damping)) ^ k) /\
  (forall unroll it fuel, (1 <= it)%Z -> (Z.to_nat it <= fuel)%nat ->
     exists a, fixed_solve (pose_env groups) fuel unroll it cholmod_solve g init = Some (Ok a) /\
       get_value (lie_class groups) a v = Ok (at_xy (v_ty v) (travel (Z.to_nat it) / vnorm [x; y] * x) (travel (Z.to_nat it) / vnorm [x; y] * y))) /\
  (forall cfg fuel, (iteration_cap (max_iterations cfg) <= fuel)%nat ->
     exists a k, gn_solve (pose_env groups) fuel cfg cholmod_solve g init = Some (Ok a) /\ (1 <= k <= iteration_cap (max_iterations cfg))%nat /\
       get_value (lie_class groups) a v = Ok (at_xy (v_ty v) (travel k / vnorm [x; y] * x) (travel k / vnorm [x; y] * y))).
Proof. intros. eapply huber_outlier; eauto. Qed.

(* tests/test_huber.py *)
Lemma huber_beats_gauss : forall groups v x y delta m fsh fsg c, groups (v_ty v) = raw_se2 -> (1 <= m)%nat -> 0 < delta -> 0 < c ->
  delta + delta / INR m <= vnorm [x; y] ->
  c ^ 4 * delta ^ 3 * (INR m + 1 + damping) ^ 4 <= INR m ^ 4 * vnorm [x; y] ^ 3 ->
  observations v m (seen_at v x y (huber_noise delta)) fsh -> observations v m (seen_at v x y unit_noise) fsg ->
  exists gh gg init, graph_make (pose_env groups) fsh = Ok gh /\ graph_make (pose_env groups) fsg = Ok gg /\ make_from_defaults (lie_class groups) [v] = Ok init /\
  forall cfg fuel, (iteration_cap (max_iterations cfg) <= fuel)%nat ->
  exists ah ag xh xg, gn_solve (pose_env groups) fuel cfg cholmod_solve gh init = Some (Ok ah) /\ gn_solve (pose_env groups) fuel cfg cholmod_solve gg init = Some (Ok ag) /\
    get_value (lie_class groups) ah v = Ok xh /\ get_value (lie_class groups) ag v = Ok xg /\
    pose_error xh < pose_error xg / c.
Proof.
  intros groups v x y delta m fsh fsg c Hse Hm Hd Hc HD Hbig Hh Hg. set (D := vnorm [x; y]) in *.
  assert (M1 : 1 <= INR m) by (apply (le_INR 1); auto). assert (Hdm : 0 < delta / INR m) by (apply Rdiv_lt_0_compat; lra). assert (D0 : 0 < D) by lra.
  destruct (rest_points m delta D Hm Hd HD) as (X & HX & _).
  destruct (huber_outlier groups v Hse x y delta m fsh X Hm Hd HX Hh) as (tr & gh & init & E1 & E2 & Htr & _ & H1).
  destruct (gauss_outlier groups v Hse x y m fsg Hg) as (gg & init' & E3 & E4 & _ & H2). rewrite E2 in E4. injection E4 as <-.
  exists gh, gg, init. split; auto. split; auto. split; auto. intros cfg fuel Hf. destruct (H1 cfg fuel Hf) as (ah & k & S1 & (K1 & _) & V1). destruct (H2 cfg fuel Hf) as (ag & j & S2 & (K2 & _) & V2).
  exists ah, ag. eexists. eexists. split; [exact S1|]. split; [exact S2|]. split; [exact V1|]. split; [exact V2|].
  destruct (Htr k K1) as ((T0 & T1) & _). destruct (share_bounds m j K2) as (B1 & _). change (share m j) with (share_after m j) in B1. change (1 / 100000) with damping in B1.
  assert (Hdp : 0 < damping) by (unfold damping; lra).
  rewrite !error_xy, !norm_times. 2:{ eapply Rle_trans; [|exact B1]. apply Rlt_le, Rdiv_lt_0_compat; lra. } 2:{ apply Rlt_le, Rdiv_lt_0_compat; fold D; lra. }
  fold D. replace (tr k / D * D) with (tr k) by (field; lra).
  assert (HXlt : X < 1 / (INR m + 1 + damping) * D / c).
  { destruct HX as (X0 & XN & XE). assert (P : (INR m * X) ^ 4 < delta ^ 3 * D) by (rewrite XE; apply Rmult_lt_compat_l; [apply pow_lt; auto | lra]).
    destruct (Rlt_or_le X (1 / (INR m + 1 + damping) * D / c)) as [|L]; auto. exfalso.
    assert (L2 : INR m * D <= c * (INR m + 1 + damping) * (INR m * X)).
    { apply (Rmult_le_compat_l (INR m * (c * (INR m + 1 + damping)))) in L; [|apply Rmult_le_pos; [lra | nra]].
      replace (INR m * (c * (INR m + 1 + damping)) * (1 / (INR m + 1 + damping) * D / c)) with (INR m * D) in L by (field; split; lra). lra. }
    assert (L3 : (INR m * D) ^ 4 <= (c * (INR m + 1 + damping) * (INR m * X)) ^ 4) by (apply pow_incr; split; auto; nra).
    rewrite (Rpow_mult_distr (c * _)), !Rpow_mult_distr in L3.
    assert (C4 : 0 < c ^ 4 * (INR m + 1 + damping) ^ 4) by (apply Rmult_lt_0_compat; apply pow_lt; lra).
    rewrite Rpow_mult_distr in P. apply (Rmult_lt_compat_l _ _ _ C4) in P.
    apply (Rmult_le_compat_r D) in Hbig; [|lra].
    replace (INR m ^ 4 * D ^ 3 * D) with (INR m ^ 4 * D ^ 4) in Hbig by ring. lra. }
  eapply Rle_lt_trans; [exact T1|]. eapply Rlt_le_trans; [exact HXlt|]. unfold Rdiv at 1 3. apply Rmult_le_compat_r; [apply Rlt_le, Rinv_0_lt_compat; auto|]. apply Rmult_le_compat_r; lra.
Qed.

(* the error grows without bound with the distance of the outlier *)
Lemma unbounded_influence : forall m delta B, (1 <= m)%nat -> 0 < delta ->
  exists x, forall groups v fs, groups (v_ty v) = raw_se2 -> observations v m (seen_at v x 0 (huber_noise delta)) fs ->
  exists g init k0, graph_make (pose_env groups) fs = Ok g /\ make_from_defaults (lie_class groups) [v] = Ok init /\
  forall unroll it fuel, (1 <= it)%Z -> (k0 <= Z.to_nat it <= fuel)%nat ->
     exists a p, fixed_solve (pose_env groups) fuel unroll it cholmod_solve g init = Some (Ok a) /\ get_value (lie_class groups) a v = Ok p /\ B < pose_error p.
Proof.
  intros m delta B Hm Hd. assert (M1 : 1 <= INR m) by (apply (le_INR 1); auto). assert (Hdm : 0 < delta / INR m) by (apply Rdiv_lt_0_compat; lra).
  set (b := Rmax B 0 + delta / INR m + 1). assert (B0 : 0 <= Rmax B 0) by apply Rmax_r. assert (Bb : B <= Rmax B 0) by apply Rmax_l.
  assert (b1 : 1 <= b) by (unfold b; lra). assert (P3 : 0 < delta ^ 3) by (apply pow_lt; auto).
  (* X = b is the rest point of D = b + (m b)^4 / delta^3 *)
  set (D := b + (INR m * b) ^ 4 / delta ^ 3). exists D.
  assert (Hmb : delta <= INR m * b).
  { apply Rle_trans with (INR m * (delta / INR m)); [right; field; lra|]. apply Rmult_le_compat_l; [lra|]. unfold b. lra. }
  assert (HX : rest_point m delta D b).
  { split; [lra|]. unfold D. replace (b + (INR m * b) ^ 4 / delta ^ 3 - b) with ((INR m * b) ^ 4 / delta ^ 3) by ring. split.
    - apply (Rmult_le_reg_r (delta ^ 3)); auto. unfold Rdiv. rewrite Rmult_assoc, Rinv_l, Rmult_1_r by lra. replace (delta * delta ^ 3) with (delta ^ 4) by ring. apply pow_incr. lra.
    - field. lra. }
  assert (HD0 : 0 < D) by (destruct HX; lra).
  assert (HnD : vnorm [D; 0] = D).
  { apply vnorm_eq; [lra|]. rewrite !sumsq_cons. change (sumsq (@nil R)) with 0. ring. }
  intros groups v fs Hse Hfs. rewrite <- HnD in HX. destruct (huber_outlier groups v Hse D 0 delta m fs b Hm Hd HX Hfs) as (tr & g & init & E1 & E2 & Htr & H1 & _).
  rewrite HnD in H1. pose proof (slack_lt m Hm) as Hs. unfold slack in Hs. change (1 / 100000) with damping in Hs. set (r := (1 + damping) / (INR m + 1 + damping)) in *.
  destruct (pow_lt_1_zero r ltac:(rewrite Rabs_pos_eq; lra) ((b - Rmax B 0) / b)) as (k0 & Hk0); [apply Rdiv_lt_0_compat; unfold b in *; lra|].
  exists g, init, k0. split; auto. split; auto. intros unroll it fuel Hit Hk. destruct (H1 unroll it fuel Hit ltac:(lia)) as (a & S1 & V1). exists a. eexists. split; [exact S1|]. split; [exact V1|].
  assert (K1 : (1 <= Z.to_nat it)%nat) by lia. destruct (Htr _ K1) as ((T0 & T1) & T2). rewrite error_xy, norm_times, HnD by (apply Rlt_le, Rdiv_lt_0_compat; lra).
  replace (tr (Z.to_nat it) / D * D) with (tr (Z.to_nat it)) by (field; lra).
  specialize (Hk0 (Z.to_nat it) ltac:(lia)). rewrite Rabs_pos_eq in Hk0 by (apply pow_le; lra).
  apply (Rmult_lt_compat_l b) in Hk0; [|lra]. replace (b * ((b - Rmax B 0) / b)) with (b - Rmax B 0) in Hk0 by (field; lra). lra.
Qed.

(* the numbers of the test *)
Definition pose0 : var := mkVar 0%nat 0%nat.
Definition se2_everywhere : vty -> lie_ops R (list R) := fun _ => raw_se2.
Definition test_graph (n : noise R) : list (factor R) :=
  [seen_at pose0 0 0 unit_noise; seen_at pose0 0 0 unit_noise; seen_at pose0 2000 200 n].
Lemma test_observes : forall n, observations pose0 2 (seen_at pose0 2000 200 n) (test_graph n).
Proof.
  intros n.   unfold observations, test_graph. cbn [repeat]. eapply perm_trans; [apply perm_skip, perm_swap|]. apply perm_swap.
Qed.
Lemma test_numbers : let D := vnorm [2000; 200] in
  1 + 1 / INR 2 <= D /\ 100 ^ 4 * 1 ^ 3 * (INR 2 + 1 + damping) ^ 4 <= INR 2 ^ 4 * D ^ 3.
Proof.
  cbn zeta. set (D := vnorm [2000; 200]). assert (HD : 2000 <= D).
  { destruct (vnorm_sq [2000; 200]) as (P1 & P2). fold D in P1, P2. rewrite !sumsq_cons in P2. change (sumsq (@nil R)) with 0 in P2. nra. }
  cbn [INR]. split; [lra|]. assert (H3 : 2000 ^ 3 <= D ^ 3) by (apply pow_incr; lra). unfold damping. lra.
Qed.
Lemma test_huber : let E := pose_env se2_everywhere in
  exists gh gg init, graph_make E (test_graph (huber_noise 1)) = Ok gh /\ graph_make E (test_graph unit_noise) = Ok gg /\
  make_from_defaults (lie_class se2_everywhere) [pose0] = Ok init /\
  forall cfg fuel, (iteration_cap (max_iterations cfg) <= fuel)%nat ->
  exists ah ag xh xg, gn_solve E fuel cfg cholmod_solve gh init = Some (Ok ah) /\ gn_solve E fuel cfg cholmod_solve gg init = Some (Ok ag) /\
    get_value (lie_class se2_everywhere) ah pose0 = Ok xh /\ get_value (lie_class se2_everywhere) ag pose0 = Ok xg /\
    pose_error xh < pose_error xg / 100.
Proof.
  cbn zeta. destruct test_numbers as (N1 & N2).
  apply (huber_beats_gauss se2_everywhere pose0 2000 200 1 2 _ _ 100); auto; try lra; apply test_observes.
Qed.
