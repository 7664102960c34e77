(* Solvers on straight-line pose graphs: proximal steps of the scalar problem. *)
From Coq Require Import List Arith Bool Lia Permutation Reals Lra ZArith.
From Verif Require Import Num NumR Py Arr MLayout MAssign MNoise MSparse MFactor MGraph MLinear MSolver MLie MPose SpecLayout SpecTree SpecAssign SpecGraph SpecSparse SpecNoise SpecDeriv SpecInv SpecSolver SpecTwin SpecLie SpecPose SpecBook SpecOutlier SpecStraight.
From Verif Require Import PBase PVec PLayout PNoise PGraph PHold PSolver PSolver2 PSolverR PDescent PTotal PPose PExAssign PExGraph PExScript PBook PExBook POutlier.
Import ListNotations.
Local Open Scope R_scope.

Section Straight.
Variable groups : vty -> lie_ops R (list R).
Notation E := (pose_env groups).
Variable os : list sight.
Variable fs : list (factor R).
Hypothesis Hos : Forall2 sight_factor os fs.
Hypothesis Hse : Forall (se2_sight groups) os.
Notation vs := (mentioned fs).

Lemma sight_in f : In f fs -> exists o, In o os /\ sight_factor o f /\ se2_sight groups o.
Proof.
  intros Hf. revert Hse. induction Hos as [|o g os' fs' H1 H2 IH]; [destruct Hf|]. intros Hse'. inversion Hse'; subst. destruct Hf as [<-|Hf].
  - exists o. split; [left|]; auto.
  - destruct (IH H2 Hf) as (o' & ? & ?); auto. exists o'. split; [right|]; auto.
Qed.
Lemma sight_vars o f v : sight_factor o f -> se2_sight groups o -> In v (f_vars f) -> groups (v_ty v) = raw_se2.
Proof.
  destruct o; cbn.
  - intros -> H [<-|[]]. auto.
  - intros H (H1 & H2). apply between_inv in H. destruct H as (_ & ->). intros [<-|[<-|[]]]; auto. rewrite H2. auto.
Qed.
Lemma vs_se2 v : In v vs -> groups (v_ty v) = raw_se2.
Proof. intros Hv. apply mentioned_in in Hv. destruct Hv as (f & Hf & Hv). destruct (sight_in f Hf) as (o & _ & H1 & H2). eapply sight_vars; eauto. Qed.
Lemma straight_posed : os <> [] -> well_posed E fs.
Proof.
  intros Hne. apply pose_posed.
  - intros f Hf. destruct (sight_in f Hf) as (o & _ & H1 & H2). destruct o; cbn in H1, H2.
    + subst f. constructor; [exists [1; 0; mu; 0]; split; auto; rewrite H2; reflexivity | split; [reflexivity | exists 3%nat; reflexivity] | rewrite H2; reflexivity].
    + destruct H2 as (H2 & H3). eapply pf_between; [exact H1 | exists [1; 0; d; 0]; split; auto; rewrite H2; reflexivity | split; [reflexivity | exists 3%nat; reflexivity] | rewrite H2; reflexivity].
  - intros v Hv. left. rewrite (vs_se2 v Hv). constructor.
  - intros ->. inversion Hos. congruence.
Qed.

(* ---- one factor ---- *)
Definition first (l : list R) : R := nth 0 l 0.
Definition off_line (xi : var -> list R) (x : var -> R) (o : sight) : R :=
  match o with
  | Seen v _ _ wy wt => (wy * (xi v).[1]) * (wy * (xi v).[1]) + (wt * (xi v).[2]) * (wt * (xi v).[2])
  | Apart va vb _ _ wy wt => let e := (xi va).[1] + (x vb - x va) * (xi va).[2] - (xi vb).[1] in let h := (xi va).[2] - (xi vb).[2] in
      (wy * e) * (wy * e) + (wt * h) * (wt * h)
  end.
Definition at_line (val : var -> pytree R) (x : var -> R) (ws : list var) : Prop := forall v, In v ws -> val v = along_x x v.

Lemma shift_mul a b c d : se2_mul [1; 0; a; b] [1; 0; c; d] = [1; 0; a + c; b + d].
Proof. unfold se2_mul. cbn [nth]. f_equal; [ring|]. f_equal; [ring|]. f_equal; [ring|]. f_equal. ring. Qed.
Lemma shift_inv a b : se2_inv [1; 0; a; b] = [1; 0; - a; - b].
Proof. unfold se2_inv. cbn [nth]. f_equal. f_equal; [ring|]. f_equal; [ring|]. f_equal. ring. Qed.

Lemma diag_residual w wy wt a b c : whiten_residual (diag3 w wy wt) [a; b; c] = Ok [w * a; wy * b; wt * c].
Proof. reflexivity. Qed.
Lemma diag_jacobian w wy wt r1 r2 r3 J1 J2 J3 : whiten_jacobian (diag3 w wy wt) [J1; J2; J3] [r1; r2; r3] = Ok [vscale w J1; vscale wy J2; vscale wt J3].
Proof. reflexivity. Qed.

Lemma sight_residual o f val x : sight_factor o f -> se2_sight groups o -> at_line val x (f_vars f) ->
  whitened_at E val f = Ok [sight_error x o; 0; 0].
Proof.
  intros Hf Hs Hv. destruct o; cbn in Hf, Hs.
  - subst f. unfold whitened_at, residual_at. cbn -[prior_residual se2_log whiten_residual diag3].
    rewrite Hs, (Hv v) by (left; auto). unfold along_x, at_xy. rewrite !params_value. unfold prior_residual, rminus. cbn [lg_log lg_mul lg_inv raw_se2].
    rewrite shift_inv, shift_mul, log_shift, diag_residual. cbn [sight_error]. f_equal. f_equal; [ring|]. f_equal; [ring|]. f_equal. ring.
  - apply between_inv in Hf. destruct Hf as (Ht & ->). destruct Hs as (H1 & H2). unfold whitened_at, residual_at. cbn -[between_residual se2_log whiten_residual diag3].
    rewrite H1, (Hv va), (Hv vb) by (cbn; auto). unfold along_x, at_xy. rewrite !params_value. unfold between_residual, rminus. cbn [lg_log lg_mul lg_inv raw_se2].
    rewrite shift_inv, shift_mul, shift_inv, shift_mul, log_shift, diag_residual. cbn [sight_error]. f_equal. f_equal; [ring|]. f_equal; [ring|]. f_equal. ring.
Qed.
Lemma sight_model o f val old x xi : sight_factor o f -> se2_sight groups o -> at_line val x (f_vars f) -> at_line old x (f_vars f) -> (forall v, In v (f_vars f) -> length (xi v) = 3%nat) ->
  model_at E val old xi f = sight_error (fun v => x v + first (xi v)) o * sight_error (fun v => x v + first (xi v)) o + off_line xi x o.
Proof.
  intros Hf Hs Hv Hold Hx. unfold model_at. rewrite (sight_residual o f old x Hf Hs Hold). unfold whitened_jacobians_at, jacobians_at. destruct o; cbn in Hf, Hs.
  - subst f. pose proof (Hx v (or_introl eq_refl)) as Hl. cbn -[neg_eye traverse whiten_jacobian diag3 sight_error pushed off_line]. rewrite Hs. unfold prior_jacobians. cbn [lg_dim raw_se2 traverse].
    change (neg_eye 3) with [[- (1); 0; 0]; [0; - (1); 0]; [0; 0; - (1)]]. rewrite diag_jacobian. cbn [bind]. change (residual_dim _) with 3%nat. unfold pushed. cbn [zipw sight_error off_line].
    destruct (xi v) as [|a [|b [|c [|]]]]; try discriminate. cbn. rn. rewrite !sumsq_cons, !vdot_cons, !vdot_nil_l. change (sumsq (@nil R)) with 0. ring.
  - apply between_inv in Hf. destruct Hf as (Ht & ->). destruct Hs as (H1 & H2). pose proof (Hx va (or_introl eq_refl)) as La. pose proof (Hx vb (or_intror (or_introl eq_refl))) as Lb.
    cbn -[neg_eye traverse whiten_jacobian diag3 sight_error pushed off_line between_jacobians]. rewrite H1, (Hv va), (Hv vb) by (cbn; auto). unfold along_x, at_xy. rewrite !params_value.
    unfold between_jacobians. cbn [lg_dim lg_adj lg_mul lg_inv raw_se2 traverse]. rewrite shift_inv, shift_mul, shift_inv. unfold se2_adj. cbn [nth].
    change (neg_eye 3) with [[- (1); 0; 0]; [0; - (1); 0]; [0; 0; - (1)]]. rewrite !diag_jacobian. cbn [bind]. change (residual_dim _) with 3%nat. unfold pushed. cbn [zipw sight_error off_line].
    destruct (xi va) as [|a [|b [|c [|]]]]; try discriminate. destruct (xi vb) as [|a' [|b' [|c' [|]]]]; try discriminate.
    cbn. rn. rewrite !sumsq_cons, !vdot_cons, !vdot_nil_l. change (sumsq (@nil R)) with 0. ring.
Qed.

(* ---- all factors ---- *)
Lemma sum_sights (F : factor R -> R) (G : sight -> R) : (forall o f, In f fs -> sight_factor o f -> se2_sight groups o -> F f = G o) -> vsum (map F fs) = vsum (map G os).
Proof.
  revert Hse. induction Hos as [|o f os' fs' H1 H2 IH]; intros Hs HF; auto. inversion Hs; subst. cbn [map]. rewrite !vsum_cons. f_equal; [apply HF; auto; left; auto|]. apply IH; auto. intros; apply HF; auto. right; auto.
Qed.
Lemma vars_in f v : In f fs -> In v (f_vars f) -> In v vs.
Proof. intros. apply mentioned_in. eauto. Qed.
Lemma at_part val x f : at_line val x vs -> In f fs -> at_line val x (f_vars f).
Proof. intros H Hf v Hv. apply H. eapply vars_in; eauto. Qed.

Lemma straight_cost val x : at_line val x vs -> cost_at E fs val = line_cost os x.
Proof.
  intros Hv. unfold cost_at, line_cost. apply sum_sights. intros o f Hf H1 H2. rewrite (sight_residual o f val x H1 H2 (at_part val x f Hv Hf)).
  rewrite !sumsq_cons. change (sumsq (@nil R)) with 0. ring.
Qed.
Lemma tangent_3 xi v : tangent E fs xi -> In v vs -> length (xi v) = 3%nat.
Proof. intros Ht Hv. rewrite (Ht v Hv). unfold vldim. cbn. rewrite (vs_se2 v Hv). reflexivity. Qed.
Definition sideways (xi : var -> list R) (x : var -> R) : R := vsum (map (off_line xi x) os).
Lemma vsum_split {A} (f g : A -> R) l : vsum (map (fun a => f a + g a) l) = vsum (map f l) + vsum (map g l).
Proof. induction l; cbn [map]; [change (vsum (@nil R)) with 0; ring|]. rewrite !vsum_cons, IHl. ring. Qed.
Lemma straight_model val old x xi : at_line val x vs -> at_line old x vs -> tangent E fs xi -> model E fs val old xi = line_cost os (fun v => x v + first (xi v)) + sideways xi x.
Proof.
  intros Hv Ho Ht. unfold model, line_cost, sideways. rewrite <- vsum_split. apply sum_sights. intros o f Hf H1 H2. apply sight_model; auto; try (apply at_part; auto).
  intros v Hv'. apply tangent_3; auto. eapply vars_in; eauto.
Qed.
Lemma vsum_nonneg {A} (f : A -> R) l : (forall a, In a l -> 0 <= f a) -> 0 <= vsum (map f l).
Proof. induction l; intros H; cbn [map]; [change (vsum (@nil R)) with 0; lra|]. rewrite vsum_cons. assert (0 <= f a) by (apply H; left; auto). assert (0 <= vsum (map f l)) by (apply IHl; intros; apply H; right; auto). lra. Qed.
Lemma sideways_pos xi x : 0 <= sideways xi x.
Proof. apply vsum_nonneg. intros o _. destruct o; cbn [off_line]; cbn zeta; apply Rplus_le_le_0_compat; apply Rle_0_sqr. Qed.
Lemma sideways_flat (a : var -> R) x : sideways (fun v => [a v; 0; 0]) x = 0.
Proof.
  unfold sideways. assert (H : forall l, vsum (map (off_line (fun v => [a v; 0; 0]) x) l) = 0); [|apply H].
  induction l as [|o l IH]; auto. cbn [map]. rewrite vsum_cons, IH. destruct o; cbn [off_line nth]; ring.
Qed.
Lemma flat_tangent (a : var -> R) : tangent E fs (fun v => [a v; 0; 0]).
Proof. intros v Hv. unfold vldim. cbn. rewrite (vs_se2 v Hv). reflexivity. Qed.
Lemma inner_flat (a : var -> R) : inner fs (fun v => [a v; 0; 0]) (fun v => [a v; 0; 0]) = vsum (map (fun v => a v * a v) vs).
Proof. unfold inner. apply vsum_map_ext. intros v _. rewrite !vdot_cons, vdot_nil_l. ring. Qed.
Lemma inner_first xi : tangent E fs xi -> vsum (map (fun v => first (xi v) * first (xi v)) vs) <= inner fs xi xi.
Proof.
  intros Ht. unfold inner. apply Rminus_le. replace (vsum (map (fun v => first (xi v) * first (xi v)) vs) - vsum (map (fun v => vdot (xi v) (xi v)) vs)) with (- vsum (map (fun v => vdot (xi v) (xi v) - first (xi v) * first (xi v)) vs)).
  - assert (0 <= vsum (map (fun v => vdot (xi v) (xi v) - first (xi v) * first (xi v)) vs)); [|lra]. apply vsum_nonneg. intros v Hv. pose proof (tangent_3 xi v Ht Hv) as L.
    destruct (xi v) as [|a [|b [|c [|]]]]; try discriminate. rewrite !vdot_cons, vdot_nil_l. cbn [first nth]. nra.
  - generalize vs. intros l. induction l as [|v l IH]; cbn [map]; [change (vsum (@nil R)) with 0; ring|]. rewrite !vsum_cons. lra.
Qed.

(* x' is the proximal point of x *)
Definition proximal (beta : R) (x x' : var -> R) : Prop := forall z, line_cost os x' + beta * dist2 vs x' x <= line_cost os z + beta * dist2 vs z x.
Lemma straight_step beta val old x xi : 0 < beta -> at_line val x vs -> at_line old x vs -> damped_step E fs beta val old xi ->
  agree fs xi (fun v => [first (xi v); 0; 0]) /\ proximal beta x (fun v => x v + first (xi v)) /\ sideways xi x = 0.
Proof.
  intros Hb Hv Ho (Ht & Hmin).
  assert (Hag : agree fs (fun v => [first (xi v); 0; 0]) xi).
  { destruct (Hmin _ (flat_tangent (fun v => first (xi v)))) as (_ & Hu). apply Hu. rewrite (straight_model val old x) by (auto; apply flat_tangent). rewrite (straight_model val old x xi) by auto.
    rewrite sideways_flat. pose proof (sideways_pos xi x). rewrite inner_flat. pose proof (inner_first xi Ht). cbn [first nth]. nra. }
  assert (Hs0 : sideways xi x = 0).
  { rewrite <- (sideways_flat (fun v => first (xi v)) x). unfold sideways. f_equal. clear - Hos Hag. unfold agree in Hag.
    assert (G : forall l, (forall o, In o l -> exists f, In f fs /\ sight_factor o f) -> map (off_line xi x) l = map (off_line (fun v => [first (xi v); 0; 0]) x) l).
    { induction l as [|o l IH]; intros Hl; auto. cbn [map]. f_equal; [|apply IH; intros; apply Hl; right; auto]. destruct (Hl o (or_introl eq_refl)) as (f & Hf & Hof). destruct o; cbn in Hof |- *.
      - subst f. rewrite <- (Hag v); [reflexivity|]. apply (vars_in _ _ Hf). left. auto.
      - apply between_inv in Hof. destruct Hof as (_ & ->). rewrite <- (Hag va), <- (Hag vb); [reflexivity| |]; apply (vars_in _ _ Hf); [right; left | left]; auto. }
    apply G. intros o Ho. clear - Hos Ho. induction Hos as [|o' f' os' fs' H1 H2 IH]; [destruct Ho|]. destruct Ho as [<-|Ho]; [exists f'; split; [left|]; auto|]. destruct (IH H2 Ho) as (f & ? & ?). exists f. split; [right|]; auto. }
  split; [intros v Hv'; symmetry; apply Hag; auto|]. split; auto.
  intros z. destruct (Hmin _ (flat_tangent (fun v => z v - x v))) as (Hle & _). rewrite (straight_model val old x xi) in Hle by auto. rewrite (straight_model val old x) in Hle by (auto; apply flat_tangent).
  rewrite sideways_flat, Hs0 in Hle. rewrite inner_flat in Hle. rewrite (inner_ext fs xi (fun v => [first (xi v); 0; 0]) xi (fun v => [first (xi v); 0; 0])), inner_flat in Hle by (intros v Hv'; symmetry; apply Hag; auto).
  assert (Hz : line_cost os (fun v => x v + first [z v - x v; 0; 0]) = line_cost os z).
  { unfold line_cost. apply vsum_map_ext. intros o _. assert (sight_error (fun v => x v + first [z v - x v; 0; 0]) o = sight_error z o) as ->; auto. destruct o; cbn; ring. }
  rewrite Hz in Hle. unfold dist2.
  replace (vsum (map (fun v => (x v + first (xi v) - x v) * (x v + first (xi v) - x v)) vs)) with (vsum (map (fun v => first (xi v) * first (xi v)) vs)) by (apply vsum_map_ext; intros; ring). lra.
Qed.
Lemma straight_moved val x xi val' : at_line val x vs -> agree fs xi (fun v => [first (xi v); 0; 0]) -> moved E fs val xi val' -> at_line val' (fun v => x v + first (xi v)) vs.
Proof.
  intros Hv Hag Hm v Hin. pose proof (Hm v Hin) as H. rewrite (Hv v Hin), (Hag v Hin) in H. cbn -[params along_x lie_retract] in H. injection H as H. rewrite <- H. unfold along_x, at_xy. f_equal. rewrite params_value, (vs_se2 v Hin).
  unfold lie_retract, rplus. cbn [lg_mul lg_exp raw_se2]. unfold se2_mul, se2_exp. cbn [nth]. rewrite cos_0, sin_0. unfold v_s, v_c. destruct (Req_EM_T 0 0); [|lra]. f_equal; [ring|]. f_equal; [ring|]. f_equal; [ring|]. f_equal. ring.
Qed.
Lemma gn_straight val x val' : at_line val x vs -> gauss_newton_turn E fs val val' -> exists x', at_line val' x' vs /\ proximal (1 / 100000) x x'.
Proof.
  intros Hv (xi & Hd & Hm). destruct (straight_step (1 / 100000) val val x xi ltac:(lra) Hv Hv Hd) as (H1 & H2 & _). exists (fun v => x v + first (xi v)). split; auto. eapply straight_moved; eauto.
Qed.

(* ---- proximal steps of a convex quadratic ---- *)
Definition toward (x z : var -> R) (t : R) : var -> R := fun v => x v + t * (z v - x v).
Lemma error_affine o x z t : sight_error (toward x z t) o = sight_error x o + t * (sight_error z o - sight_error x o).
Proof. destruct o; cbn; unfold toward; ring. Qed.
Lemma cost_quadratic x z : exists b c, 0 <= c /\ forall t, line_cost os (toward x z t) = line_cost os x + t * b + t * t * c.
Proof.
  exists (vsum (map (fun o => 2 * sight_error x o * (sight_error z o - sight_error x o)) os)), (vsum (map (fun o => (sight_error z o - sight_error x o) * (sight_error z o - sight_error x o)) os)). split.
  - apply vsum_nonneg. intros. apply Rle_0_sqr.
  - intros t. unfold line_cost. induction os as [|o l IH]; cbn [map]; [change (vsum (@nil R)) with 0; ring|]. rewrite !vsum_cons.
    assert (IH' : vsum (map (fun o0 => sight_error (toward x z t) o0 * sight_error (toward x z t) o0) l) = vsum (map (fun o0 => sight_error x o0 * sight_error x o0) l) + t * vsum (map (fun o0 => 2 * sight_error x o0 * (sight_error z o0 - sight_error x o0)) l) + t * t * vsum (map (fun o0 => (sight_error z o0 - sight_error x o0) * (sight_error z o0 - sight_error x o0)) l)).
    { clear - l. induction l as [|o l IH]; cbn [map]; [change (vsum (@nil R)) with 0; ring|]. rewrite !vsum_cons, IH, error_affine. ring. }
    rewrite IH', error_affine. ring.
Qed.
Lemma dist_quadratic x z y : exists b, forall t, dist2 vs (toward x z t) y = dist2 vs x y + t * b + t * t * dist2 vs z x.
Proof.
  exists (vsum (map (fun v => 2 * (x v - y v) * (z v - x v)) vs)). intros t. unfold dist2. generalize vs. intros l. induction l as [|v l IH]; cbn [map]; [change (vsum (@nil R)) with 0; ring|].
  rewrite !vsum_cons, IH. unfold toward. ring.
Qed.
Lemma dist_pos x z : 0 <= dist2 vs x z.
Proof. apply vsum_nonneg. intros. apply Rle_0_sqr. Qed.
Lemma cost_ext x z : (forall v, In v vs -> x v = z v) -> line_cost os x = line_cost os z.
Proof.
  intros H. unfold line_cost. rewrite <- (sum_sights (fun f => match whitened_at E (along_x x) f with Ok w => sumsq w | Err _ => 0 end)).
  - rewrite <- (sum_sights (fun f => match whitened_at E (along_x z) f with Ok w => sumsq w | Err _ => 0 end)).
    + apply vsum_map_ext. intros f Hf. assert (whitened_at E (along_x x) f = whitened_at E (along_x z) f) as ->; auto. unfold whitened_at, residual_at. do 2 f_equal. apply map_ext_in. intros v Hv. unfold along_x. rewrite H; auto. eapply vars_in; eauto.
    + intros o f Hf H1 H2. rewrite (sight_residual o f (along_x z) z H1 H2) by (intros v _; auto). rewrite !sumsq_cons. change (sumsq (@nil R)) with 0. ring.
  - intros o f Hf H1 H2. rewrite (sight_residual o f (along_x x) x H1 H2) by (intros v _; auto). rewrite !sumsq_cons. change (sumsq (@nil R)) with 0. ring.
Qed.
Lemma min_at_zero b c : 0 <= c -> (forall t, 0 <= t * b + t * t * c) -> b = 0.
Proof.
  intros Hc H. destruct (Req_dec b 0) as [|Hb]; auto. exfalso. pose proof (H (- b / (c + 1))) as H1.
  assert (HE : (- b / (c + 1)) * b + (- b / (c + 1)) * (- b / (c + 1)) * c = - (b * b) / ((c + 1) * (c + 1))) by (field; lra). rewrite HE in H1.
  assert (0 < b * b / ((c + 1) * (c + 1))); [|unfold Rdiv in *; lra]. apply Rdiv_lt_0_compat; [|nra]. destruct (Rtotal_order b 0) as [?|[?|?]]; nra.
Qed.
Lemma three_points beta x x' z : 0 <= beta -> proximal beta x x' -> line_cost os x' + beta * dist2 vs x' x + beta * dist2 vs z x' <= line_cost os z + beta * dist2 vs z x.
Proof.
  intros Hb Hp. destruct (cost_quadratic x' z) as (b & c & Hc & HQ). destruct (dist_quadratic x' z x) as (e & HD).
  assert (H0 : b + beta * e = 0).
  { apply (min_at_zero _ (c + beta * dist2 vs z x')).
    - pose proof (dist_pos z x'). apply Rplus_le_le_0_compat; auto. apply Rmult_le_pos; auto.
    - intros t. pose proof (Hp (toward x' z t)) as H. rewrite HQ, HD in H. nra. }
  assert (Hz : forall v, toward x' z 1 v = z v) by (intros; unfold toward; ring).
  assert (H1 : line_cost os (toward x' z 1) = line_cost os z) by (apply cost_ext; auto).
  assert (H2 : dist2 vs (toward x' z 1) x = dist2 vs z x) by (unfold dist2; apply vsum_map_ext; intros; rewrite Hz; auto).
  rewrite HQ in H1. rewrite HD in H2. rewrite <- H1, <- H2. nra.
Qed.
End Straight.
