(* Proofs: two priors on one rigid motion; a cheaper pose than the one the solvers settle at. *)
From Coq Require Import List Arith Bool Lia Reals Lra.
From Verif Require Import Num NumR Py Arr MLayout MAssign MNoise MSparse MFactor MGraph MLie MPose SpecNoise SpecLayout SpecTree SpecAssign SpecLie SpecGraph SpecSparse SpecDeriv SpecPose SpecZero SpecSpatial SpecTwin SpecInv SpecOrder SpecBook SpecSettle.
From Verif Require Import PBase PVec PLayout PAssign PGraph PGraph4 PHold PNoise PGraph2 PDeriv PLie PPose PFrame PZero PJacZero PSpatial PSpatial2 PSpatial3 PSpatial4 PSolverR PDescent PLoss PTwin PTwin2 PBook PBasin5 PSettle1 PSettle2 PSettle3 PSettle4 PSettle7 PSettle8.
Import ListNotations.
Local Open Scope R_scope.

Lemma moving_known raw : moving raw -> known raw.
Proof. intros []; [left | right]; constructor. Qed.
(* the tangent vector of a translation *)
Definition slip (raw : lie_ops R (list R)) (p : list R) : list R := if Nat.eqb (lg_dim raw) 6 then [p.[0]; p.[1]; p.[2]; 0; 0; 0] else [p.[0]; p.[1]; 0].
Definition in_plane (raw : lie_ops R (list R)) (p : list R) : Prop := length p = 3%nat /\ (raw = raw_se2 -> p.[2] = 0).

Lemma zero_exp : quat_exp [0; 0; 0] = [1; 0; 0; 0].
Proof. rewrite quat_exp_form. assert (El : len3 [0; 0; 0] = 0) by (unfold len3; cbn [nth]; rewrite Rmult_0_l, !Rplus_0_r; apply sqrt_0). unfold ec. rewrite El. replace (0 / 2) with 0 by field. rewrite cos_0. cbn [nth]. rewrite Rmult_0_r. auto. Qed.
Lemma slip_exp raw p : moving raw -> in_plane raw p ->
  lg_exp raw (vneg (slip raw p)) = if Nat.eqb (lg_dim raw) 6 then [1; 0; 0; 0; - p.[0]; - p.[1]; - p.[2]] else [1; 0; - p.[0]; - p.[1]].
Proof.
  intros [] (Lp & Hp); cbn [lg_exp lg_dim raw_se2 raw_se3 Nat.eqb slip vneg map nneg NumR].
  - unfold slip. cbn. unfold se2_exp. cbn [nth]. rewrite Ropp_0, cos_0, sin_0, v_s_0, v_c_0. lists; ring.
  - unfold slip. cbn [lg_dim raw_se3 Nat.eqb vneg map nneg NumR]. rewrite se3_exp_form. unfold rotv, trav. cbn [nth]. rewrite Ropp_0, zero_exp.
    unfold vee. rewrite lin3_zero; auto. unfold len3; cbn [nth]; rewrite Rmult_0_l, !Rplus_0_r; apply sqrt_0.
Qed.
(* the logarithm is linear in the translation *)
Definition lift (raw : lie_ops R (list R)) (u : list R) (w : list R) : list R := if Nat.eqb (lg_dim raw) 6 then u ++ w else [u.[0]; u.[1]; w.[2]].
Lemma slip_log raw q p : moving raw -> legal_pose raw q -> in_plane raw p ->
  exists h, lg_log raw (lg_mul raw (lg_exp raw (vneg (slip raw p))) q) =
    lift raw (vsub (slide raw (lg_log raw q)) (lin3 (axis raw (lg_log raw q)) (- (1 / 2)) h p)) (axis raw (lg_log raw q)) /\
    forall p', in_plane raw p' -> lg_log raw (lg_mul raw (lg_exp raw (vneg (slip raw p'))) q) =
      lift raw (vsub (slide raw (lg_log raw q)) (lin3 (axis raw (lg_log raw q)) (- (1 / 2)) h p')) (axis raw (lg_log raw q)).
Proof.
  intros Hm (Lq & _) Hp.
  assert (G : exists h, forall p', in_plane raw p' -> lg_log raw (lg_mul raw (lg_exp raw (vneg (slip raw p'))) q) =
      lift raw (vsub (slide raw (lg_log raw q)) (lin3 (axis raw (lg_log raw q)) (- (1 / 2)) h p')) (axis raw (lg_log raw q))).
  2: { destruct G as (h & G). exists h. split; auto. }
  destruct Hm.
  - cbn in Lq. destruct q as [|c [|s [|x [|y [|]]]]]; try discriminate. set (t := atan2 s c).
    exists (if Req_EM_T t 0 then 0 else (1 - v_a t) / (t * t)). intros p' Hp'. rewrite slip_exp by (auto; constructor). destruct Hp' as (Lp & Hz). specialize (Hz eq_refl).
    destruct p' as [|a [|b [|z [|]]]]; try discriminate. cbn in Hz. subst z.
    cbn [lg_dim raw_se2 Nat.eqb lg_log lg_mul]. unfold se2_mul, se2_log, lift, slide, axis. cbn [lg_dim raw_se2 Nat.eqb nth].
    replace (atan2 (0 * c + 1 * s) (1 * c - 0 * s)) with t by (unfold t; f_equal; ring). fold t.
    assert (Ev : v_a t = 1 - (if Req_EM_T t 0 then 0 else (1 - v_a t) / (t * t)) * (t * t)). { destruct (Req_EM_T t 0) as [->|Hn]; [unfold v_a; destruct (Req_EM_T 0 0); [ring | lra] | field; auto]. }
    set (h := if Req_EM_T t 0 then 0 else (1 - v_a t) / (t * t)) in *. clearbody h. rewrite Ev.
    unfold lin3, vsub, vadd, vscale, cross. cbn [zipw map nth nadd nmul nsub NumR]. lists; field.
  - exists (eh (quat_log (rot_part q))). intros p' Hp'. rewrite slip_exp by (auto; constructor). destruct Hp' as (Lp & _). cbn [lg_dim raw_se3 Nat.eqb lg_log lg_mul].
    assert (Eq : se3_mul [1; 0; 0; 0; - p'.[0]; - p'.[1]; - p'.[2]] q = rot_part q ++ vsub (tra_part q) p').
    { unfold se3_mul. f_equal; [unfold quat_mul, rot_part; cbn [nth]; lists; ring|]. destruct p' as [|a [|b [|z [|]]]]; try discriminate. unfold quat_apply, quat_mul, quat_conj, rot_part, tra_part, vadd, vsub. cbn [tl nth zipw nadd nsub NumR]. lists; ring. }
    rewrite Eq. rewrite !se3_log_form. assert (Er : rot_part (rot_part q ++ vsub (tra_part q) p') = rot_part q) by reflexivity. rewrite Er.
    assert (Et : tra_part (rot_part q ++ vsub (tra_part q) p') = vsub (tra_part q) p').
    { destruct p' as [|a [|b [|z [|]]]]; try discriminate. reflexivity. } rewrite Et.
    assert (Lw : length (quat_log (rot_part q)) = 3%nat) by reflexivity. set (w := quat_log (rot_part q)) in *. clearbody w. set (h := eh w). clearbody h. set (tq := tra_part q) in *. assert (Lt : length tq = 3%nat) by reflexivity. clearbody tq.
    destruct w as [|w0 [|w1 [|w2 [|]]]]; try discriminate. destruct tq as [|t0 [|t1 [|t2 [|]]]]; try discriminate. destruct p' as [|a [|b [|z [|]]]]; try discriminate.
    unfold lift, slide, axis. cbn [lg_dim raw_se3 Nat.eqb]. unfold lin3, vsub, vadd, vscale, cross. cbn [zipw map nth nadd nmul nsub NumR app]. lists; field.
Qed.

Lemma lift_sumsq raw u w : moving raw -> in_plane raw u -> length w = 3%nat -> (raw = raw_se2 -> w.[0] = 0 /\ w.[1] = 0) -> sumsq (lift raw u w) = sq3 u + sq3 w.
Proof.
  intros [] (Lu & Hu) Lw Hw; destruct u as [|u0 [|u1 [|u2 [|]]]]; try discriminate; destruct w as [|w0 [|w1 [|w2 [|]]]]; try discriminate; unfold lift, sq3; cbn [lg_dim raw_se2 raw_se3 Nat.eqb nth app].
  - specialize (Hu eq_refl). specialize (Hw eq_refl). cbn in Hu, Hw. destruct Hw as (-> & ->). subst u2. rewrite !sumsq_cons. change (sumsq (T := R) []) with 0. rn. ring.
  - rewrite !sumsq_cons. change (sumsq (T := R) []) with 0. rn. ring.
Qed.
Lemma parts raw d : moving raw -> length d = lg_dim raw -> d = lift raw (slide raw d) (axis raw d) /\ in_plane raw (slide raw d) /\ length (axis raw d) = 3%nat /\ (raw = raw_se2 -> (axis raw d).[0] = 0 /\ (axis raw d).[1] = 0).
Proof.
  intros [] Ld; cbn in Ld.
  - destruct d as [|a [|b [|z [|]]]]; try discriminate. unfold lift, slide, axis, in_plane. cbn. auto.
  - destruct d as [|a [|b [|z [|? [|? [|? [|]]]]]]]; try discriminate. unfold lift, slide, axis, in_plane. cbn. repeat split; auto; discriminate || (intros H; exfalso; assert (6 = 3)%nat by (change 6%nat with (lg_dim raw_se3); rewrite H; reflexivity); discriminate).
Qed.

Lemma shifted_sq c v w h y : length v = 3%nat -> length w = 3%nat ->
  sq3 (vsub (vscale c v) (lin3 (vscale c w) (- (1 / 2)) h (vscale y (cross w v)))) =
  c * c * sq3 v - c * c * y * sq3 (cross w v) + y * y * sq3 (lin3 (vscale c w) (- (1 / 2)) h (cross w v)).
Proof.
  intros Lv Lw. destruct v as [|v0 [|v1 [|v2 [|]]]]; try discriminate. destruct w as [|w0 [|w1 [|w2 [|]]]]; try discriminate.
  unfold sq3, lin3, vsub, vadd, vscale, cross. cbn [zipw map nth nadd nmul nsub NumR]. field.
Qed.
Lemma sq3_nonneg d : 0 <= sq3 d. Proof. unfold sq3. nra. Qed.
Lemma sq3_pos d : length d = 3%nat -> d <> [0; 0; 0] -> 0 < sq3 d.
Proof.
  intros Ld Hd. destruct (Rle_lt_or_eq_dec 0 (sq3 d) (sq3_nonneg d)) as [|He]; auto. exfalso. apply Hd. destruct d as [|a [|b [|z [|]]]]; try discriminate. unfold sq3 in He. cbn [nth] in He.
  assert (a = 0) by nra. assert (b = 0) by nra. assert (z = 0) by nra. subst. auto.
Qed.
Lemma parts_scale raw c d : moving raw -> length d = lg_dim raw -> slide raw (vscale c d) = vscale c (slide raw d) /\ axis raw (vscale c d) = vscale c (axis raw d).
Proof.
  intros [] Ld; cbn in Ld.
  - destruct d as [|a [|b [|z [|]]]]; try discriminate. unfold slide, axis. cbn. split; lists; ring.
  - destruct d as [|a [|b [|z [|? [|? [|? [|]]]]]]]; try discriminate. unfold slide, axis. cbn. auto.
Qed.

Lemma slip_len raw p : moving raw -> length (slip raw p) = lg_dim raw.
Proof. intros []; reflexivity. Qed.

Section Cheaper.
Variable groups : vty -> lie_ops R (list R).
Variable v : var.
Let raw := groups (v_ty v).
Hypothesis Hm : moving raw.
Let Hk : known raw := moving_known raw Hm.
Let E := pose_env groups.
Variables mu1 mu2 : list R.
Hypothesis H1 : legal_pose raw mu1.
Hypothesis H2 : legal_pose raw mu2.
Variables n1 n2 : noise R.
Variables s1 s2 : R.
Hypothesis M1 : scales n1 (lg_dim raw) s1.
Hypothesis M2 : scales n2 (lg_dim raw) s2.
Variable k : R.
Hypothesis Hkk : 0 < k < 1.
Hypothesis Hs : s1 * s1 * k = s2 * s2 * (1 - k).
Hypothesis Hs1 : s1 <> 0.
Notation fs := (two_priors v mu1 n1 mu2 n2).
Notation d := (lg_log raw (lg_mul raw (lg_inv raw mu1) mu2)).
Notation m := (on_the_way raw k mu1 mu2).
Let ax := axis raw d.
Let sl := slide raw d.
Let nn := cross ax sl.
Hypothesis Hn : nn <> [0; 0; 0].

Lemma d_len : length d = lg_dim raw. Proof. apply log_len; auto. Qed.
Lemma nn_plane y : in_plane raw (vscale y nn).
Proof.
  destruct (parts raw d Hm d_len) as (_ & (Ls & Ps) & La & Pa). fold ax sl in Ls, Ps, La, Pa. split; [unfold nn; reflexivity|]. intros Hr. specialize (Ps Hr). specialize (Pa Hr). unfold nn, cross. cbn. destruct Pa as (-> & ->). ring.
Qed.

Lemma shifted mu c : legal_pose raw mu -> prior_residual raw mu m = vscale c d ->
  exists Q, 0 <= Q /\ forall y, sumsq (prior_residual raw mu (lie_retract raw m (slip raw (vscale y nn)))) = sumsq (prior_residual raw mu m) - c * c * y * sq3 nn + y * y * Q.
Proof.
  intros Hmu Hr. assert (Gm : legal_pose raw m) by (apply mid_good; auto). assert (Gq : legal_pose raw (lg_mul raw (lg_inv raw m) mu)) by (apply good_mul; auto; apply good_inv; auto).
  destruct (slip_log raw _ (vscale 0 nn) Hm Gq (nn_plane 0)) as (h & _ & Hh). change (lg_log raw (lg_mul raw (lg_inv raw m) mu)) with (prior_residual raw mu m) in Hh. rewrite Hr in Hh.
  destruct (parts_scale raw c d Hm d_len) as (Es & Ea). rewrite Es, Ea in Hh. fold ax sl in Hh.
  destruct (parts raw d Hm d_len) as (Ed & Ps & La & Pa). fold ax sl in Ed, Ps, La, Pa.
  exists (sq3 (lin3 (vscale c ax) (- (1 / 2)) h nn)). split; [apply sq3_nonneg|]. intros y.
  assert (Ex : prior_residual raw mu (lie_retract raw m (slip raw (vscale y nn))) = lift raw (vsub (vscale c sl) (lin3 (vscale c ax) (- (1 / 2)) h (vscale y nn))) (vscale c ax)).
  { rewrite <- (Hh (vscale y nn) (nn_plane y)). unfold prior_residual, rminus, lie_retract, rplus. f_equal. rewrite inv_of_mul by (auto; first [apply Gm | apply (good_exp raw Hk)]).
    rewrite raw_assoc by auto. f_equal. pose proof (exp_minus raw Hk 1 (slip raw (vscale y nn))) as G. rewrite vscale_one in G. rewrite G.
    - f_equal. unfold vneg, vscale. apply map_ext. intros z. cbn. ring.
    - apply slip_len; auto. }
  assert (Wc : raw = raw_se2 -> (vscale c ax).[0] = 0 /\ (vscale c ax).[1] = 0).
  { intros He. destruct (Pa He) as (A0 & A1). rewrite !nth_vscale, A0, A1. split; ring. }
  assert (Pc : forall y', in_plane raw (vsub (vscale c sl) (lin3 (vscale c ax) (- (1 / 2)) h (vscale y' nn)))).
  { intros y'. destruct Ps as (Ls & Ps). destruct (nn_plane y') as (Ln & Pn). split.
    - rewrite vsub_length; rewrite vscale_length; auto.
    - intros He. rewrite nth_vsub by (rewrite vscale_length, lin3_length; auto). rewrite nth_vscale, (Ps He). destruct (Wc He) as (B0 & B1). specialize (Pn He). set (W := vscale c ax) in *. set (N := vscale y' nn) in *.
      assert (length N = 3)%nat by auto. clearbody W N. unfold lin3. destruct N as [|a [|b [|z [|]]]]; try discriminate. cbn in Pn. unfold vadd, vscale, cross. cbn [zipw map nth nadd nmul NumR]. rewrite B0, B1, Pn. ring. }
  rewrite Ex, lift_sumsq; auto; [|rewrite vscale_length; auto]. rewrite shifted_sq by (auto; apply Ps). fold nn.
  rewrite Hr, sumsq_scale, Ed. fold ax sl. rewrite lift_sumsq by auto. assert (Eq : sq3 (vscale c ax) = c * c * sq3 ax). { unfold sq3. rewrite !nth_vscale. ring. } rewrite Eq. ring.
Qed.

Lemma cheaper : exists x, legal_pose raw x /\ forall val val', val v = group_value (v_ty v) m -> val' v = group_value (v_ty v) x -> cost_at E fs val' < cost_at E fs val.
Proof.
  destruct (shifted mu1 (- k) H1 (mid_first raw Hk mu1 mu2 H1 H2 k Hkk)) as (Q1 & P1 & F1).
  destruct (shifted mu2 (1 - k) H2 (mid_second raw Hk mu1 mu2 H1 H2 k Hkk)) as (Q2 & P2 & F2).
  set (A := (s1 * s1 * (k * k) + s2 * s2 * ((1 - k) * (1 - k))) * sq3 nn). set (Q := s1 * s1 * Q1 + s2 * s2 * Q2).
  assert (S1 : 0 < s1 * s1) by nra. assert (S2 : 0 <= s2 * s2) by nra.
  assert (HA : 0 < A). { unfold A. apply Rmult_lt_0_compat; [|apply sq3_pos; auto; reflexivity]. assert (0 < s1 * s1 * (k * k)) by (apply Rmult_lt_0_compat; nra). assert (0 <= s2 * s2 * ((1 - k) * (1 - k))) by (apply Rmult_le_pos; nra). lra. }
  assert (HQ : 0 <= Q). { unfold Q. assert (0 <= s1 * s1 * Q1) by (apply Rmult_le_pos; lra). assert (0 <= s2 * s2 * Q2) by (apply Rmult_le_pos; lra). lra. }
  set (y := A / (Q + 1)). exists (lie_retract raw m (slip raw (vscale y nn))). split.
  { apply good_mul; auto; [apply mid_good; auto | apply good_exp; auto]. }
  intros val val' Hv Hv'. change E with (pose_env groups). rewrite (iso_cost groups v Hk mu1 mu2 n1 n2 s1 s2 M1 M2 _ val Hv), (iso_cost groups v Hk mu1 mu2 n1 n2 s1 s2 M1 M2 _ val' Hv'). fold raw.
  rewrite F1, F2. assert (Hd : - y * A + y * y * Q < 0).
  { unfold y. replace (- (A / (Q + 1)) * A + A / (Q + 1) * (A / (Q + 1)) * Q) with (- (A * A) / ((Q + 1) * (Q + 1))) by (field; lra).
    unfold Rdiv. assert (0 < / ((Q + 1) * (Q + 1))) by (apply Rinv_0_lt_compat; nra). assert (0 < A * A) by nra. nra. }
  unfold A, Q in Hd. lra.
Qed.
End Cheaper.
