(* Proofs: averaging rotations, the gradients of the iterates vanish. *)
From Coq Require Import List Arith Bool Lia Reals Lra ZArith.
From Verif Require Import Num NumR Py Arr MLayout MAssign MNoise MSparse MFactor MGraph MLinear MSolver MLie MPose SpecNoise SpecLayout SpecTree SpecAssign SpecLie SpecGraph SpecSparse SpecDeriv SpecPose SpecZero SpecSpatial SpecTwin SpecInv SpecOrder SpecSolver SpecBook SpecSettle SpecTurn SpecMean.
From Verif Require Import PBase PVec PLayout PAssign PAssign3 PGraph PGraph4 PHold PNoise PGraph2 PDeriv PLie PPose PFrame PZero PJacZero PSpatial PSpatial2 PSpatial3 PSpatial4 PSolverR PDescent PTotal PLoss PTwin PTwin2 PLin PBook PExBook PFree PStraight PTurn PExTurn PSettle1 PSettle2 PSettle3 PSettle4 PSettle6 PSettle8 PExSettle PMean1 PMean2 PMean3.
Import ListNotations.
Local Open Scope R_scope.

(* ---- decreasing sequences ---- *)
Section Falling.
Variable c : nat -> R.
Hypothesis Hd : forall n, c (S n) <= c n.
Hypothesis Hc : forall n, 0 <= c n.
Lemma some_small d k n : (exists i, (k <= i < k + n)%nat /\ c i - c (S i) <= d) \/ INR n * d <= c k - c (k + n)%nat.
Proof.
  induction n as [|n IH]; [right; rewrite Nat.add_0_r; cbn; lra|]. destruct IH as [(i & Hi & H)|IH]; [left; exists i; split; [lia | auto]|].
  destruct (Rle_dec (c (k + n)%nat - c (S (k + n))) d) as [Hl|Hl]; [left; exists (k + n)%nat; split; [lia | auto]|]. right. rewrite Nat.add_succ_r, S_INR. lra.
Qed.
Lemma one_small k n : (1 <= n)%nat -> exists i, (k <= i < k + n)%nat /\ c i - c (S i) <= c k / INR n.
Proof.
  intros Hn. assert (Hp : 0 < INR n) by (apply lt_0_INR; lia). destruct n as [|n]; [lia|].
  destruct (some_small (c k / INR (S n)) k n) as [(i & Hi & H)|H]; [exists i; split; [lia | auto]|]. exists (k + n)%nat. split; [lia|].
  rewrite S_INR in *. replace (c k / (INR n + 1)) with (c k - INR n * (c k / (INR n + 1))) by (field; lra). pose proof (Hc (S (k + n))). lra.
Qed.
Lemma gaps_vanish eps : 0 < eps -> exists N, forall n, (N <= n)%nat -> c n - c (S n) < eps.
Proof.
  intros He. destruct (decreasing_cv c) as (l & Hl).
  - intros n. apply Hd.
  - exists 0. intros x (n & ->). unfold opp_seq. pose proof (Hc n). lra.
  - destruct (Hl (eps / 2) ltac:(lra)) as (N & HN). exists N. intros n Hn. pose proof (HN n Hn) as H1. pose proof (HN (S n) ltac:(lia)) as H2.
    unfold R_dist in *. apply Rabs_def2 in H1. apply Rabs_def2 in H2. lra.
Qed.
End Falling.

(* ---- Gauss-Newton determines the next values ---- *)
Section Same.
Variable E : env R.
Variable fs : list (factor R).
Notation same := (at_rest fs).
Lemma model_same u w xi : same u w -> model E fs u u xi = model E fs w w xi.
Proof.
  intros H. unfold model. apply vsum_map_ext. intros f Hf. unfold model_at. destruct (rest_white E fs u w f H Hf) as (E1 & E2). rewrite E1. destruct (whitened_at E u f) as [r|]; auto. rewrite E2. auto.
Qed.
Lemma pull_same u w xi : same u w -> pull E fs u xi = pull E fs w xi.
Proof.
  intros H. unfold pull. apply vsum_map_ext. intros f Hf. unfold pull_at. destruct (rest_white E fs u w f H Hf) as (E1 & E2). rewrite E1. destruct (whitened_at E u f) as [r|]; auto. rewrite E2. auto.
Qed.
Lemma turn_same u w u' w' : same u w -> gauss_newton_turn E fs u u' -> gauss_newton_turn E fs w w' -> same u' w'.
Proof.
  intros H (xi & Hd & Hm) (eta & (Te & He) & Hm').
  assert (Hd' : damped_step E fs (1 / 100000) u u eta).
  { split; auto. intros z Tz. rewrite !(model_same u w) by auto. apply He; auto. }
  assert (Hm2 : moved E fs u eta w') by (intros v Hv; rewrite <- (H v Hv); apply Hm'; auto).
  pose proof (damped_unique E fs _ u u xi eta Hd Hd') as Ha. intros v Hv. specialize (Hm v Hv). specialize (Hm2 v Hv). rewrite (Ha v Hv) in Hm2. rewrite Hm in Hm2. injection Hm2 as ->. auto.
Qed.
Lemma turns_same k u u' : turns (gauss_newton_turn E fs) k u u' -> forall w w', same u w -> turns (gauss_newton_turn E fs) k w w' -> same u' w'.
Proof.
  induction 1 as [u|k u u1 u' H1 H IH]; intros w w' Hs Hw; inversion Hw as [|? ? w1 ? W1 W2]; subst; auto. apply (IH w1); auto. eapply turn_same; eauto.
Qed.
End Same.

Section Graph.
Variable groups : vty -> lie_ops R (list R).
Variable fs : list (factor R).
Hypothesis Hav : averaging groups fs.
Let E := pose_env groups.
Notation J f val xi := (pushed (residual_dim f) (f_vars f) (jacobians_at E val f) xi).

Lemma part_inner xi v : In v (mentioned fs) -> sumsq (xi v) <= inner fs xi xi.
Proof.
  unfold inner. generalize (mentioned fs). induction l as [|u l IH]; intros Hv; [destruct Hv|]. cbn [map]. rewrite vsum_cons.
  assert (H1 : 0 <= vdot (xi u) (xi u)) by (rewrite <- sumsq_dot; apply sumsq_nonneg).
  assert (H2 : 0 <= vsum (map (fun v => vdot (xi v) (xi v)) l)) by (apply vsum_nonneg; intros; rewrite <- sumsq_dot; apply sumsq_nonneg).
  destruct Hv as [->|Hv]; [rewrite sumsq_dot; lra|]. specialize (IH Hv). lra.
Qed.
Lemma push_bound f val xi : In f fs -> tangent E fs xi -> sumsq (J f val xi) <= 4 * inner fs xi xi.
Proof.
  intros Hf Hx. destruct (proj2 Hav f Hf) as (s & Hpf & _ & _ & Hg).
  assert (Hb : forall v, In v (f_vars f) -> length (xi v) = lg_dim (groups (v_ty v))) by (intros v Hv; apply Hx; eapply in_mentioned; eauto).
  assert (Hi : forall v, In v (f_vars f) -> sumsq (xi v) <= inner fs xi xi) by (intros v Hv; apply part_inner; eapply in_mentioned; eauto).
  pose proof (inner_nonneg fs xi) as H0. revert Hg Hb Hi. clear Hf. destruct Hpf as [v mu n Hmu Hno Hd|va vb Tab n h Hbt Htab Hno Hd]; intros Hg Hb Hi.
  - specialize (Hb v (or_introl eq_refl)). specialize (Hi v (or_introl eq_refl)).
    unfold jacobians_at, residual_dim, pushed. cbn [prior_make f_vars f_noise f_cls f_params map]. rewrite Hd.
    change (sumsq (vadd (mvec (neg_eye (lg_dim (groups (v_ty v)))) (xi v)) (vzero (lg_dim (groups (v_ty v))))) <= 4 * inner fs xi xi).
    rewrite add_zero_r by (rewrite neg_eye_mvec, vneg_length; auto). rewrite neg_eye_mvec by auto. rewrite sumsq_dot, vdot_neg_l, vdot_neg_r, <- sumsq_dot. lra.
  - pose proof (between_inv va vb Tab n h Hbt) as (Ht & ->).
    pose proof (Hb va (or_introl eq_refl)) as Ba. pose proof (Hb vb (or_intror (or_introl eq_refl))) as Bb.
    pose proof (Hi va (or_introl eq_refl)) as Ia. pose proof (Hi vb (or_intror (or_introl eq_refl))) as Ib.
    assert (G : groups (v_ty va) = raw_so2) by (destruct (Hg va (or_introl eq_refl)) as [|(_ & Hc)]; [auto | discriminate]).
    unfold jacobians_at, residual_dim, pushed. cbn [f_vars f_noise f_cls f_params map]. rewrite Hd.
    change (sumsq (vadd (mvec (lg_adj (groups (v_ty va)) (lg_inv (groups (v_ty va)) (lg_mul (groups (v_ty va)) (lg_inv (groups (v_ty va)) (params (val va))) (params (val vb))))) (xi va))
        (vadd (mvec (neg_eye (lg_dim (groups (v_ty va)))) (xi vb)) (vzero (lg_dim (groups (v_ty va)))))) <= 4 * inner fs xi xi).
    rewrite <- Ht in Bb. rewrite neg_eye_mvec by auto. rewrite add_zero_r by (rewrite vneg_length; auto). rewrite add_neg.
    rewrite G in *. change (lg_adj raw_so2 (lg_inv raw_so2 (lg_mul raw_so2 (lg_inv raw_so2 (params (val va))) (params (val vb))))) with [[1]].
    destruct (xi va) as [|u [|]]; try discriminate. destruct (xi vb) as [|w [|]]; try discriminate. unfold vsub, mvec. cbn [zipw map]. rewrite vdot_cons, vdot_nil_l.
    rewrite !sumsq_cons in *. change (sumsq (T := R) []) with 0 in *. rn. pose proof (Rle_0_sqr (u + w)) as Hq. unfold Rsqr in Hq. lra.
Qed.
Lemma bend_bound : exists K, 0 < K /\ forall val xi, rotations groups fs val -> tangent E fs xi -> bend E fs val xi <= K * inner fs xi xi.
Proof.
  assert (H : forall l, (forall f, In f l -> In f fs) -> exists K, 0 < K /\ forall val xi, rotations groups fs val -> tangent E fs xi -> vsum (map (bend_at E val xi) l) <= K * inner fs xi xi).
  { induction l as [|f l IH]; intros Hl.
    - exists 1. split; [lra|]. intros val xi _ _. cbn [map]. rewrite vsum_nil. pose proof (inner_nonneg fs xi). lra.
    - destruct IH as (K & HK & H); [intros; apply Hl; right; auto|]. assert (Hf : In f fs) by (apply Hl; left; auto). destruct (proj2 Hav f Hf) as (s & Hs).
      exists (4 * (s * s) + K). pose proof (Rle_0_sqr s) as Hq. unfold Rsqr in Hq. split; [lra|]. intros val xi Hr Hx. cbn [map]. rewrite vsum_cons. specialize (H val xi Hr Hx).
      unfold bend_at at 1. unfold E. rewrite (scaled_cost groups fs Hav f s val Hf Hs Hr). destruct (scaled_push groups fs Hav f s val xi Hf Hs Hr Hx) as (Ws & -> & ->). rewrite sumsq_scale.
      pose proof (push_bound f val xi Hf Hx) as Hp. assert (s * s * sumsq (J f val xi) <= s * s * (4 * inner fs xi xi)) by (apply Rmult_le_compat_l; auto). unfold E in *. lra. }
  apply H. auto.
Qed.
Lemma mean_majorised : majorised E fs (rotations groups fs).
Proof. intros val xi val' Hr Hx Hm. split; [eapply av_rotations; eauto | eapply mean_below; eauto]. Qed.
Lemma mean_still val : rotations groups fs val -> forall v, In v (mentioned fs) -> retract (e_cls E (v_ty v)) (val v) (vzero (vldim (e_cls E) v)) = Ok (val v).
Proof.
  intros Hr v Hv. destruct (Hr v Hv) as (p & Ep & Hp). rewrite Ep. apply pose_still; [apply (av_known groups fs Hav); auto | apply Hp].
Qed.
(* a cost below (s pi)^2 keeps the residual short of a half turn *)
Lemma residual_small val f : rotations groups fs val -> In f fs -> short_of_half_turns groups fs (cost_at E fs val) -> vnorm (residual_at E val f) < PI.
Proof.
  intros Hr Hf Hsh. destruct (proj2 Hav f Hf) as (s & Hs). specialize (Hsh f s Hf Hs). pose proof PI_RGT_0.
  assert (Hle : s * s * sumsq (residual_at E val f) <= cost_at E fs val).
  { unfold cost_at. assert (Hone : match whitened_at E val f with Ok w => sumsq w | Err _ => 0 end = s * s * sumsq (residual_at E val f)) by (unfold E; rewrite (scaled_cost groups fs Hav f s val Hf Hs Hr), sumsq_scale; auto).
    rewrite <- Hone. clear - Hf. induction fs as [|h l IH]; [destruct Hf|]. cbn [map]. rewrite vsum_cons.
    assert (H0 : 0 <= match whitened_at E val h with Ok w => sumsq w | Err _ => 0 end) by (destruct (whitened_at E val h); [apply sumsq_nonneg | lra]).
    assert (H1 : 0 <= vsum (map (fun f => match whitened_at E val f with Ok w => sumsq w | Err _ => 0 end) l)) by (apply vsum_nonneg; intros y _; destruct (whitened_at E val y); [apply sumsq_nonneg | lra]).
    destruct Hf as [->|Hf]; [lra|]. specialize (IH Hf). lra. }
  destruct (vnorm_sq (residual_at E val f)) as (N0 & N1). destruct (Rlt_or_le (vnorm (residual_at E val f)) PI) as [|Hge]; auto. exfalso.
  assert (Hpp : PI * PI <= sumsq (residual_at E val f)) by nra. pose proof (Rle_0_sqr s) as Hq. unfold Rsqr in Hq. pose proof (Rmult_le_compat_l (s * s) _ _ Hq Hpp). lra.
Qed.
End Graph.
