(* Solvers on graphs of planar rotations: proximal steps of the unwound scalar problem. *)
From Coq Require Import List Arith Bool Lia Permutation Reals Lra ZArith.
From Verif Require Import Num NumR Py Arr MLayout MAssign MNoise MSparse MFactor MGraph MLinear MSolver MLie MPose SpecLayout SpecTree SpecAssign SpecGraph SpecSparse SpecNoise SpecDeriv SpecInv SpecSolver SpecTwin SpecLie SpecPose SpecBook SpecOutlier SpecStraight SpecTurn.
From Verif Require Import PBase PVec PLayout PNoise PGraph PHold PSolver PSolver2 PSolverR PDescent PTotal PLie PPose PExAssign PExGraph PExScript PBook PExBook POutlier PStraight PExStraight.
Import ListNotations.
Local Open Scope R_scope.

(* ---- whole turns ---- *)
Lemma wrap_range t : - PI < wrap t <= PI.
Proof.
  pose proof PI_RGT_0 as Hpi. unfold wrap. destruct (base_Int_part ((PI - t) / (2 * PI))) as (H1 & H2). set (k := IZR (Int_part ((PI - t) / (2 * PI)))) in *.
  assert (HE : (PI - t) / (2 * PI) * (2 * PI) = PI - t) by (field; lra).
  assert (H3 : k * (2 * PI) <= PI - t) by (rewrite <- HE; apply Rmult_le_compat_r; lra).
  assert (H4 : (PI - t) - 2 * PI < k * (2 * PI)) by (rewrite <- HE; replace ((PI - t) / (2 * PI) * (2 * PI) - 2 * PI) with (((PI - t) / (2 * PI) - 1) * (2 * PI)) by ring; apply Rmult_lt_compat_r; lra). lra.
Qed.
Lemma cos_turns t k : cos (t + 2 * PI * IZR k) = cos t /\ sin (t + 2 * PI * IZR k) = sin t.
Proof.
  assert (P : forall n t, cos (t + 2 * PI * IZR (Z.of_nat n)) = cos t /\ sin (t + 2 * PI * IZR (Z.of_nat n)) = sin t).
  { intros n s. rewrite <- INR_IZR_INZ. replace (2 * PI * INR n) with (2 * INR n * PI) by ring. split; [apply cos_period | apply sin_period]. }
  destruct (Z_le_gt_dec 0 k) as [H|H].
  - rewrite <- (Z2Nat.id k H). apply P.
  - replace k with (- Z.of_nat (Z.to_nat (- k)))%Z by lia. rewrite opp_IZR. destruct (P (Z.to_nat (- k)) (t + 2 * PI * - IZR (Z.of_nat (Z.to_nat (- k))))) as (H1 & H2).
    replace (t + 2 * PI * - IZR (Z.of_nat (Z.to_nat (- k))) + 2 * PI * IZR (Z.of_nat (Z.to_nat (- k)))) with t in * by ring. split; symmetry; auto.
Qed.
Lemma wrap_cos t : cos (wrap t) = cos t /\ sin (wrap t) = sin t.
Proof. apply cos_turns. Qed.
Lemma wrap_small t : - PI < t <= PI -> wrap t = t.
Proof. intros H. destruct (wrap_cos t). apply angle_unique; auto. apply wrap_range. Qed.
Lemma wrap_ext s t : cos s = cos t -> sin s = sin t -> wrap s = wrap t.
Proof. intros H1 H2. destruct (wrap_cos s), (wrap_cos t). apply angle_unique; try apply wrap_range; congruence. Qed.
Lemma wrap_le t : wrap t * wrap t <= t * t.
Proof.
  pose proof (wrap_range t). destruct (Rlt_dec (- PI) t); [destruct (Rle_dec t PI)|]; [rewrite wrap_small by lra; lra | nra | nra].
Qed.
Lemma log_facing t : lg_log raw_so2 [cos t; sin t] = [wrap t].
Proof.
  cbn. f_equal. destruct (wrap_cos t) as (H1 & H2). rewrite <- H1, <- H2. change (atan2 (rs (rot_exp (wrap t))) (rc (rot_exp (wrap t))) = wrap t).
  rewrite atan2_unit, angle_exp by apply wrap_range. reflexivity.
Qed.
Lemma facing_mul a b : so2_mul [cos a; sin a] [cos b; sin b] = [cos (a + b); sin (a + b)].
Proof. unfold so2_mul. cbn [nth]. rewrite cos_plus, sin_plus. reflexivity. Qed.
Lemma facing_inv a : so2_inv [cos a; sin a] = [cos (- a); sin (- a)].
Proof. unfold so2_inv. cbn [nth]. rewrite cos_neg, sin_neg. reflexivity. Qed.

Section Turning.
Variable groups : vty -> lie_ops R (list R).
Notation E := (pose_env groups).
Variable os : list bearing.
Variable fs : list (factor R).
Hypothesis Hos : Forall2 bearing_factor os fs.
Hypothesis Hso : Forall (so2_bearing groups) os.
Notation vs := (mentioned fs).

Lemma bearing_in f : In f fs -> exists o, In o os /\ bearing_factor o f /\ so2_bearing groups o.
Proof.
  intros Hf. revert Hso. induction Hos as [|o g os' fs' H1 H2 IH]; [destruct Hf|]. intros Hso'. inversion Hso'; subst. destruct Hf as [<-|Hf].
  - exists o. split; [left|]; auto.
  - destruct (IH H2 Hf) as (o' & ? & ?); auto. exists o'. split; [right|]; auto.
Qed.
Lemma bearing_vars o f v : bearing_factor o f -> so2_bearing groups o -> In v (f_vars f) -> groups (v_ty v) = raw_so2.
Proof.
  destruct o; cbn.
  - intros -> H [<-|[]]. auto.
  - intros H (H1 & H2). apply between_inv in H. destruct H as (_ & ->). intros [<-|[<-|[]]]; auto. rewrite H2. auto.
Qed.
Lemma vs_so2 v : In v vs -> groups (v_ty v) = raw_so2.
Proof. intros Hv. apply mentioned_in in Hv. destruct Hv as (f & Hf & Hv). destruct (bearing_in f Hf) as (o & _ & H1 & H2). eapply bearing_vars; eauto. Qed.
Lemma turn_posed : os <> [] -> well_posed E fs.
Proof.
  intros Hne. apply pose_posed.
  - intros f Hf. destruct (bearing_in f Hf) as (o & _ & H1 & H2). destruct o; cbn in H1, H2.
    + subst f. constructor; [exists [cos mu; sin mu]; split; auto; rewrite H2; reflexivity | split; [reflexivity | exists 1%nat; reflexivity] | rewrite H2; reflexivity].
    + destruct H2 as (H2 & H3). eapply pf_between; [exact H1 | exists [cos d; sin d]; split; auto; rewrite H2; reflexivity | split; [reflexivity | exists 1%nat; reflexivity] | rewrite H2; reflexivity].
  - intros v Hv. left. rewrite (vs_so2 v Hv). constructor.
  - intros ->. inversion Hos. congruence.
Qed.

(* ---- one factor ---- *)
Definition at_angles (val : var -> pytree R) (x : var -> R) (ws : list var) : Prop := forall v, In v ws -> val v = headings x v.
Lemma diag1_residual w a : whiten_residual (diag1 w) [a] = Ok [w * a].
Proof. reflexivity. Qed.
Lemma diag1_jacobian w r J : whiten_jacobian (diag1 w) [J] [r] = Ok [vscale w J].
Proof. reflexivity. Qed.
Lemma bearing_residual o f val x : bearing_factor o f -> so2_bearing groups o -> at_angles val x (f_vars f) ->
  whitened_at E val f = Ok [weight o * wrap (offset x o)].
Proof.
  intros Hf Hs Hv. destruct o; cbn in Hf, Hs.
  - subst f. unfold whitened_at, residual_at. cbn -[prior_residual raw_so2 whiten_residual diag1].
    rewrite Hs, (Hv v) by (left; auto). unfold headings, facing. rewrite !params_value. unfold prior_residual, rminus. cbn [lg_mul lg_inv raw_so2].
    rewrite facing_inv, facing_mul, log_facing, diag1_residual. cbn [weight offset]. replace (- x v + mu) with (mu - x v) by ring. reflexivity.
  - apply between_inv in Hf. destruct Hf as (Ht & ->). destruct Hs as (H1 & H2). unfold whitened_at, residual_at. cbn -[between_residual raw_so2 whiten_residual diag1].
    rewrite H1, (Hv va), (Hv vb) by (cbn; auto). unfold headings, facing. rewrite !params_value. unfold between_residual, rminus. cbn [lg_mul lg_inv raw_so2].
    rewrite facing_inv, facing_mul, facing_inv, facing_mul, log_facing, diag1_residual. cbn [weight offset]. replace (- (- x va + x vb) + d) with (d - (x vb - x va)) by ring. reflexivity.
Qed.
Lemma unwound_error x z o : sight_error z (unwound x o) = weight o * (wrap (offset x o) + (offset z o - offset x o)).
Proof. destruct o; cbn; ring. Qed.
Lemma unwound_here x o : sight_error x (unwound x o) = weight o * wrap (offset x o).
Proof. rewrite unwound_error. ring. Qed.
Lemma bearing_model o f val old x xi : bearing_factor o f -> so2_bearing groups o -> at_angles val x (f_vars f) -> at_angles old x (f_vars f) -> (forall v, In v (f_vars f) -> length (xi v) = 1%nat) ->
  model_at E val old xi f = sight_error (fun v => x v + first (xi v)) (unwound x o) * sight_error (fun v => x v + first (xi v)) (unwound x o).
Proof.
  intros Hf Hs Hv Hold Hx. unfold model_at. rewrite (bearing_residual o f old x Hf Hs Hold), unwound_error. unfold whitened_jacobians_at, jacobians_at. destruct o; cbn in Hf, Hs.
  - subst f. pose proof (Hx v (or_introl eq_refl)) as Hl. cbn -[neg_eye traverse whiten_jacobian diag1 offset weight pushed wrap]. rewrite Hs. unfold prior_jacobians. cbn [lg_dim raw_so2 traverse].
    change (neg_eye 1) with [[- (1)]]. rewrite diag1_jacobian. cbn [bind]. change (residual_dim _) with 1%nat. unfold pushed. cbn [zipw offset weight].
    destruct (xi v) as [|a [|]]; try discriminate. cbn -[wrap]. rn. rewrite !sumsq_cons, !vdot_cons, !vdot_nil_l. change (sumsq (@nil R)) with 0. ring.
  - apply between_inv in Hf. destruct Hf as (Ht & ->). destruct Hs as (H1 & H2). pose proof (Hx va (or_introl eq_refl)) as La. pose proof (Hx vb (or_intror (or_introl eq_refl))) as Lb.
    cbn -[neg_eye traverse whiten_jacobian diag1 offset weight pushed between_jacobians wrap]. rewrite H1.
    unfold between_jacobians. cbn [lg_dim lg_adj lg_mul lg_inv raw_so2 traverse].
    change (neg_eye 1) with [[- (1)]]. rewrite !diag1_jacobian. cbn [bind]. change (residual_dim _) with 1%nat. unfold pushed. cbn [zipw offset weight].
    destruct (xi va) as [|a [|]]; try discriminate. destruct (xi vb) as [|a' [|]]; try discriminate.
    cbn -[wrap]. rn. rewrite !sumsq_cons, !vdot_cons, !vdot_nil_l. change (sumsq (@nil R)) with 0. ring.
Qed.

(* ---- all factors ---- *)
Lemma sum_bearings (F : factor R -> R) (G : bearing -> R) : (forall o f, In f fs -> bearing_factor o f -> so2_bearing groups o -> F f = G o) -> vsum (map F fs) = vsum (map G os).
Proof.
  revert Hso. induction Hos as [|o f os' fs' H1 H2 IH]; intros Hs HF; auto. inversion Hs; subst. cbn [map]. rewrite !vsum_cons. f_equal; [apply HF; auto; left; auto|]. apply IH; auto. intros; apply HF; auto. right; auto.
Qed.
Lemma angles_part val x f : at_angles val x vs -> In f fs -> at_angles val x (f_vars f).
Proof. intros H Hf v Hv. apply H. eapply vars_in; eauto. Qed.
Lemma turn_cost_at val x : at_angles val x vs -> cost_at E fs val = turn_cost os x.
Proof.
  intros Hv. unfold cost_at, turn_cost. apply sum_bearings. intros o f Hf H1 H2. rewrite (bearing_residual o f val x H1 H2 (angles_part val x f Hv Hf)).
  rewrite !sumsq_cons. change (sumsq (@nil R)) with 0. ring.
Qed.
Lemma tangent_1 xi v : tangent E fs xi -> In v vs -> length (xi v) = 1%nat.
Proof. intros Ht Hv. rewrite (Ht v Hv). unfold vldim. cbn. rewrite (vs_so2 v Hv). reflexivity. Qed.
Lemma turn_model val old x xi : at_angles val x vs -> at_angles old x vs -> tangent E fs xi -> model E fs val old xi = flat_cost os x (fun v => x v + first (xi v)).
Proof.
  intros Hv Ho Ht. unfold model, flat_cost, line_cost. rewrite map_map. apply sum_bearings. intros o f Hf H1 H2. apply bearing_model; auto; try (apply angles_part; auto).
  intros v Hv'. apply tangent_1; auto. eapply vars_in; eauto.
Qed.
Lemma single_tangent (a : var -> R) : tangent E fs (fun v => [a v]).
Proof. intros v Hv. unfold vldim. cbn. rewrite (vs_so2 v Hv). reflexivity. Qed.
Lemma inner_single xi : tangent E fs xi -> inner fs xi xi = vsum (map (fun v => first (xi v) * first (xi v)) vs).
Proof. intros Ht. unfold inner. apply vsum_map_ext. intros v Hv. pose proof (tangent_1 xi v Ht Hv) as L. destruct (xi v) as [|a [|]]; try discriminate. rewrite vdot_cons, vdot_nil_l. cbn [first nth]. ring. Qed.

(* the flat problem is that of some straight-line graph over the same variables *)
Definition line_of (x : var -> R) (o : bearing) : factor R :=
  match unwound x o with
  | Seen v mu w wy wt => prior_make v (at_xy (v_ty v) mu 0) (diag3 w wy wt)
  | Apart va vb d w wy wt => mkFactor 1%nat [va; vb] (diag3 w wy wt) [at_xy (v_ty va) d 0]
  end.
Lemma line_twin x : Forall2 sight_factor (map (unwound x) os) (map (line_of x) os) /\ Forall (se2_sight (fun _ => raw_se2)) (map (unwound x) os) /\ mentioned (map (line_of x) os) = vs.
Proof.
  assert (Hm : flat_map f_vars (map (line_of x) os) = flat_map f_vars fs).
  { clear Hso. induction Hos as [|o f os' fs' H1 H2 IH]; auto. cbn [map flat_map]. rewrite IH by auto. f_equal. destruct o; cbn in H1.
    - subst f. reflexivity.
    - apply between_inv in H1. destruct H1 as (_ & ->). reflexivity. }
  split; [|split; [|unfold mentioned; rewrite Hm; reflexivity]].
  - clear Hos Hm. induction os as [|o l IH]; [constructor|]. inversion Hso; subst. cbn [map]. constructor; auto. destruct o; cbn; auto. destruct H1 as (_ & H1). unfold between_make. rewrite H1, !Nat.eqb_refl. cbn. rewrite Nat.eqb_refl. reflexivity.
  - clear Hos Hm. induction os as [|o l IH]; [constructor|]. inversion Hso; subst. cbn [map]. constructor; auto. destruct o; cbn; auto. destruct H1; auto.
Qed.
Definition prox (beta : R) (x x' : var -> R) : Prop := forall z, flat_cost os x x' + beta * dist2 vs x' x <= flat_cost os x z + beta * dist2 vs z x.
Lemma turn_step beta val old x xi : at_angles val x vs -> at_angles old x vs -> damped_step E fs beta val old xi -> prox beta x (fun v => x v + first (xi v)).
Proof.
  intros Hv Ho (Ht & Hmin) z. destruct (Hmin _ (single_tangent (fun v => z v - x v))) as (Hle & _). rewrite (turn_model val old x xi) in Hle by auto. rewrite (turn_model val old x) in Hle by (auto; apply single_tangent).
  rewrite !inner_single in Hle by (auto; apply single_tangent). cbn [first nth] in Hle.
  assert (Hz : flat_cost os x (fun v => x v + (z v - x v)) = flat_cost os x z).
  { unfold flat_cost, line_cost. apply vsum_map_ext. intros o _. assert (sight_error (fun v => x v + (z v - x v)) o = sight_error z o) as ->; auto. destruct o; cbn; ring. }
  rewrite Hz in Hle. unfold dist2.
  replace (vsum (map (fun v => (x v + first (xi v) - x v) * (x v + first (xi v) - x v)) vs)) with (vsum (map (fun v => first (xi v) * first (xi v)) vs)) by (apply vsum_map_ext; intros; ring). exact Hle.
Qed.
Lemma turn_moved val x xi val' : at_angles val x vs -> tangent E fs xi -> moved E fs val xi val' -> at_angles val' (fun v => x v + first (xi v)) vs.
Proof.
  intros Hv Ht Hm v Hin. pose proof (Hm v Hin) as H. rewrite (Hv v Hin) in H. pose proof (tangent_1 xi v Ht Hin) as L. destruct (xi v) as [|a [|]] eqn:Ex; try discriminate.
  cbn -[params headings lie_retract] in H. injection H as H. rewrite <- H. unfold headings, facing. f_equal. rewrite params_value, (vs_so2 v Hin), Ex.
  unfold lie_retract, rplus. cbn [lg_mul lg_exp raw_so2 first nth]. unfold so2_exp. cbn [nth]. apply facing_mul.
Qed.

(* ---- the wrapped cost lies below the flat one and touches it ---- *)
Lemma flat_here x : flat_cost os x x = turn_cost os x.
Proof. unfold flat_cost, line_cost, turn_cost. rewrite map_map. apply vsum_map_ext. intros o _. rewrite unwound_here. reflexivity. Qed.
Lemma offset_shift x o : exists k, wrap (offset x o) = offset x o + 2 * PI * IZR k.
Proof. eexists. reflexivity. Qed.
Lemma wrap_flat x z o : wrap (wrap (offset x o) + (offset z o - offset x o)) = wrap (offset z o).
Proof. destruct (offset_shift x o) as (k & ->). replace (offset x o + 2 * PI * IZR k + (offset z o - offset x o)) with (offset z o + 2 * PI * IZR k) by ring. destruct (cos_turns (offset z o) k). apply wrap_ext; auto. Qed.
Lemma vsum_mono {A} (f g : A -> R) l : (forall a, In a l -> f a <= g a) -> vsum (map f l) <= vsum (map g l).
Proof. induction l; intros H; cbn [map]; [lra|]. rewrite !vsum_cons. assert (f a <= g a) by (apply H; left; auto). assert (vsum (map f l) <= vsum (map g l)) by (apply IHl; intros; apply H; right; auto). lra. Qed.
Lemma cost_below x z : turn_cost os z <= flat_cost os x z.
Proof.
  unfold flat_cost, line_cost, turn_cost. rewrite map_map. apply vsum_mono. intros o _. rewrite unwound_error, <- (wrap_flat x z o). pose proof (wrap_le (wrap (offset x o) + (offset z o - offset x o))).
  set (a := wrap (wrap (offset x o) + (offset z o - offset x o))) in *. set (b := wrap (offset x o) + (offset z o - offset x o)) in *. pose proof (Rle_0_sqr (weight o)) as Hw. unfold Rsqr in Hw.
  replace (weight o * a * (weight o * a)) with (weight o * weight o * (a * a)) by ring. replace (weight o * b * (weight o * b)) with (weight o * weight o * (b * b)) by ring. apply Rmult_le_compat_l; auto.
Qed.
(* a flat cost below every (w pi)^2 rules out wrapping *)
Lemma in_range x z o : In o os -> tame os (flat_cost os x z) -> weight o = 0 \/ - PI < wrap (offset x o) + (offset z o - offset x o) < PI.
Proof.
  intros Ho Ht. destruct (Ht o Ho) as [|Hc]; auto. right. set (b := wrap (offset x o) + (offset z o - offset x o)).
  assert (Hle : weight o * b * (weight o * b) <= flat_cost os x z).
  { unfold flat_cost, line_cost. rewrite map_map. unfold b. rewrite <- unwound_error. clear Hc Hos Hso Ht. revert Ho. induction os as [|p l IH]; intros Ho; [destruct Ho|]. cbn [map]. rewrite vsum_cons.
    assert (Hp : 0 <= vsum (map (fun q => sight_error z (unwound x q) * sight_error z (unwound x q)) l)) by (apply vsum_nonneg; intros; apply Rle_0_sqr).
    destruct Ho as [->|Ho]; [lra|]. pose proof (IH Ho). pose proof (Rle_0_sqr (sight_error z (unwound x p))) as Hq. unfold Rsqr in Hq. lra. }
  assert (Hlt : weight o * weight o * (b * b) < weight o * weight o * (PI * PI)) by (replace (weight o * weight o * (b * b)) with (weight o * b * (weight o * b)) by ring; replace (weight o * weight o * (PI * PI)) with (weight o * PI * (weight o * PI)) by ring; lra).
  assert (Hw : 0 <= weight o * weight o) by apply Rle_0_sqr. assert (Hb : b * b < PI * PI) by (apply Rnot_le_lt; intros H; pose proof (Rmult_le_compat_l _ _ _ Hw H); lra).
  pose proof PI_RGT_0. split; nra.
Qed.
Lemma tame_same x z : tame os (flat_cost os x z) -> turn_cost os z = flat_cost os x z /\ forall y, flat_cost os z y = flat_cost os x y.
Proof.
  intros Ht. assert (Hw : forall o, In o os -> weight o = 0 \/ wrap (offset z o) = wrap (offset x o) + (offset z o - offset x o)).
  { intros o Ho. destruct (in_range x z o Ho Ht) as [|H]; auto. right. rewrite <- (wrap_flat x z o). apply wrap_small. lra. }
  split.
  - unfold flat_cost, line_cost, turn_cost. rewrite map_map. apply vsum_map_ext. intros o Ho. rewrite unwound_error. destruct (Hw o Ho) as [->| ->]; ring.
  - intros y. unfold flat_cost, line_cost. rewrite !map_map. apply vsum_map_ext. intros o Ho. rewrite !unwound_error. destruct (Hw o Ho) as [->| ->]; [ring|].
    replace (wrap (offset x o) + (offset z o - offset x o) + (offset y o - offset z o)) with (wrap (offset x o) + (offset y o - offset x o)) by ring. reflexivity.
Qed.
End Turning.
