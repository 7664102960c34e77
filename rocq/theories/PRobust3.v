(* Affine residuals under Gaussian or Huber noise: every Gauss-Newton step lowers the followed loss. *)
From Coq Require Import List Arith Bool Lia ZArith Permutation Reals Lra Psatz.
From Verif Require Import Num NumR Py Arr MLayout MAssign MNoise MSparse MFactor MGraph MLinear MSolver SpecLayout SpecTree SpecAssign SpecGraph SpecSparse SpecDeriv SpecNoise SpecSolver SpecOrder SpecInv SpecLin SpecLoss SpecRobust.
From Verif Require Import PBase PLayout PTree PAssign PAssign2 PAssign3 PStack PGraph PGraph2 PGraph3 PGraph4 PVec PSparse PLinear PCg PJac PGraph5 PLayout2 POrder PHold PExGraph PSolver PSolver2 PInv PTotal PDeriv PNoise PLoss PExLoss PLin PNear PLinTr PDescent PRobust PRobust2.
Import ListNotations.
Local Open Scope R_scope.

(* ---- one factor, as vectors ---- *)
Lemma dot_norms (a b : list R) : length a = length b -> vdot a b <= vnorm a * vnorm b.
Proof.
  intros H. pose proof (cauchy_schwarz a b H) as CS. rewrite <- !norm_sq in CS. pose proof (norm_pos a). pose proof (norm_pos b).
  destruct (Rle_or_lt (vdot a b) (vnorm a * vnorm b)) as [|Hc]; auto. exfalso. assert (0 <= vnorm a * vnorm b) by nra. nra.
Qed.
Lemma vector_above nm (r y : list R) s q : robust_noise nm -> length r = length y -> 0 < q <= 1 -> q * q = s -> s * q = gain nm (vnorm r) ->
  profile nm (vnorm (vadd r y)) <= profile nm (vnorm r) + vdot (vscale s r) (vscale q y) + sumsq (vscale q y) / 2.
Proof.
  intros Hr Hl Hq Hs Hg. pose proof (profile_above nm (vnorm r) (vnorm (vadd r y)) Hr (norm_pos _) (norm_pos _)) as H. rewrite !norm_sq in H.
  rewrite sumsq_add in H by auto. rewrite <- Hg in H. rewrite vdot_scale_l, vdot_scale_r, (sumsq_dot (vscale q y)), vdot_scale_l, vdot_scale_r, <- sumsq_dot.
  pose proof (sumsq_nonneg y) as Hy. assert (s * q * sumsq y <= q * (q * sumsq y)) by (rewrite <- Hs; assert (q * q * q <= q * q) by nra; nra). lra.
Qed.
Lemma vector_below nm mu (r y : list R) s q : length r = length y -> s * q = gain nm (vnorm r) -> mu <= gain nm (vnorm r) ->
  (forall n m, n = vnorm r -> m = vnorm (vadd r y) -> profile nm n + gain nm n * n * (m - n) + mu / 2 * ((m - n) * (m - n)) <= profile nm m) ->
  profile nm (vnorm r) + vdot (vscale s r) (vscale q y) + mu / 2 * sumsq y <= profile nm (vnorm (vadd r y)).
Proof.
  intros Hl Hg Hmu H. specialize (H _ _ eq_refl eq_refl). pose proof (dot_norms r (vadd r y)) as HD. rewrite vadd_length in HD by auto. specialize (HD eq_refl).
  rewrite vdot_add_r in HD by auto. rewrite <- sumsq_dot in HD. rewrite vdot_scale_l, vdot_scale_r.
  pose proof (sumsq_add r y Hl) as HS. rewrite <- (norm_sq (vadd r y)) in HS. rewrite <- (norm_sq r) in HS, HD. set (n := vnorm r) in *. set (m := vnorm (vadd r y)) in *. set (G := gain nm n) in *.
  assert (HG : (G - mu) * vdot r y <= (G - mu) * (n * (m - n))) by (apply Rmult_le_compat_l; lra). replace (s * (q * vdot r y)) with (G * vdot r y) by (rewrite <- Hg; ring). nra.
Qed.
Lemma profile_nonneg nm n : robust_noise nm -> 0 <= n -> 0 <= profile nm n.
Proof.
  intros Hr Hn. destruct (profile_below nm n Hr Hn) as (mu & Hmu & H). destruct (H 0 n) as (_ & H1); [lra | lra|].
  assert (H0 : profile nm 0 = 0). { destruct Hr as [H2|(w & delta & -> & _ & Hd)]; [destruct nm; [| |destruct H2]; unfold profile; lra|]. unfold profile. cbn [scal a_data]. rewrite loss_inner; lra. }
  rewrite H0 in H1. nra.
Qed.
Lemma level_modulus (nms : list (noise R)) l : (forall nm, In nm nms -> robust_noise nm) -> exists mu, 0 < mu <= 1 /\ forall nm n m, In nm nms -> 0 <= n -> 0 <= m ->
  profile nm n <= l -> profile nm m <= l -> mu <= gain nm n /\ profile nm n + gain nm n * n * (m - n) + mu / 2 * ((m - n) * (m - n)) <= profile nm m.
Proof.
  induction nms as [|nm0 nms IH]; intros H; [exists 1; split; [lra|]; intros ? ? ? []|].
  destruct IH as (mu1 & Hm1 & H1); [intros; apply H; right; auto|]. pose proof (H nm0 (or_introl eq_refl)) as Hr.
  destruct (profile_coercive nm0 l Hr) as (B & HB & Hc). destruct (profile_below nm0 B Hr HB) as (mu2 & Hm2 & H2).
  exists (Rmin mu1 mu2). split; [split; [apply Rmin_glb_lt; lra | pose proof (Rmin_l mu1 mu2); lra]|].
  intros nm n m [<-|Hin] Hn Hm Ln Lm.
  - pose proof (Rmin_r mu1 mu2). destruct (H2 n m) as (A1 & A2); [auto | auto|]. split; [lra|]. pose proof (Rle_0_sqr (m - n)) as Hs. unfold Rsqr in Hs. nra.
  - pose proof (Rmin_l mu1 mu2). destruct (H1 nm n m Hin Hn Hm Ln Lm) as (A1 & A2). split; [lra|]. pose proof (Rle_0_sqr (m - n)) as Hs. unfold Rsqr in Hs. nra.
Qed.

Lemma part_le {X} (h : X -> R) l f : In f l -> (forall x, In x l -> 0 <= h x) -> h f <= vsum (map h l).
Proof.
  induction l as [|f0 l IH]; intros Hin Hp; [destruct Hin|]. change (h f <= h f0 + vsum (map h l)). destruct Hin as [<-|Hin].
  - assert (0 <= vsum (map h l)); [|lra]. apply PVec.vsum_nonneg. intros z Hz. apply in_map_iff in Hz. destruct Hz as (t & <- & Ht). apply Hp. right; auto.
  - pose proof (Hp f0 (or_introl eq_refl)). pose proof (IH Hin (fun f' Hf' => Hp f' (or_intror Hf'))). lra.
Qed.
Section Robust.
Variable E : env R.
Let C := e_cls E.
Variable fs : list (factor R).
Variable g : graph R.
Hypothesis RP : robust_problem E fs.
Hypothesis CO : classes_ok C.
Hypothesis Hok : forall f, In f fs -> factor_ok f.
Hypothesis Hg : is_graph E fs g.
Hypothesis Hne : fs <> [].
Hypothesis Hrd : total residual_dim fs <> 0%nat.
Hypothesis Hws : well_shaped E fs.
Let L := graph_layout E fs true.
Let n := l_dim L.
Let m := total residual_dim fs.

Variable valr : var -> pytree R.
Hypothesis Hlr : legal E fs valr.
(* the effect of a step on the whitened residual of one factor, without the Huber weight *)
Definition effect (x : list R) (f : factor R) : list R := bare (f_noise f) (slots_times C L x (residual_dim f) (f_vars f) (jacobians_at E valr f)).
Definition bare_form (x : list R) : R := vsum (map (fun f => sumsq (effect x f)) fs).

Lemma legal_to val f : legal E fs val -> In f fs -> legal_for E f val.
Proof. intros H Hf v Hv. apply H. apply mentioned_in. eauto. Qed.
Lemma eff_jac val f : legal E fs val -> In f fs -> jacobians_at E val f = jacobians_at E valr f.
Proof. intros Hl Hf. apply (rp_const _ _ RP); auto; apply legal_to; auto. Qed.
Lemma eff_length x f : length x = n -> In f fs -> length (slots_times C L x (residual_dim f) (f_vars f) (jacobians_at E valr f)) = residual_dim f.
Proof. intros Hx Hf. apply slots_length. pose proof (ws_jacobian E fs Hws valr f Hlr Hf) as H. unfold jacobian_shape_ok in H. clear - H. induction H; constructor; tauto. Qed.

(* values after a step *)
Lemma stepped a val b valb x f : holds E fs a val -> holds E fs b valb -> as_storage b = vadd (as_storage a) x -> length x = n -> In f fs ->
  residual_at E valb f = vadd (residual_at E val f) (slots_times C L x (residual_dim f) (f_vars f) (jacobians_at E valr f)).
Proof.
  intros Ha Hb Hs Hx Hf. pose proof (holds_legal E fs CO _ _ Ha) as Hl. pose proof (holds_legal E fs CO _ _ Hb) as Hl'.
  rewrite (rp_affine _ _ RP f val valb Hf (legal_to _ _ Hl Hf) (legal_to _ _ Hl' Hf)). f_equal. unfold jacobian_times_change, slots_times. f_equal. rewrite (eff_jac val f Hl Hf).
  assert (Hb' : forall v, In v (f_vars f) -> block C L x v = vsub (ravel (valb v)) (ravel (val v))).
  { intros v Hv. assert (Hm : In v (mentioned fs)) by (apply mentioned_in; eauto).
    rewrite <- (pl_held_blocks E fs (rp_plain _ _ RP) CO a val v Ha Hm), <- (pl_held_blocks E fs (rp_plain _ _ RP) CO b valb v Hb Hm). fold C L.
    pose proof (pl_held_length E fs (rp_plain _ _ RP) CO a val Ha) as La. fold L n in La.
    assert (Hx' : x = vsub (as_storage b) (as_storage a)).
    { rewrite Hs. assert (Hll : length x = length (as_storage a)) by congruence. revert Hll. clear. generalize (as_storage a). induction x as [|y x IH]; intros [|z l] H; try discriminate H; auto.
      rewrite vadd_cons, vsub_cons. f_equal; [lra | apply IH; simpl in H; lia]. }
    rewrite Hx' at 1. unfold vsub. rewrite block_zipw. auto. }
  revert Hb'. generalize (jacobians_at E valr f). generalize (f_vars f). clear.
  induction l as [|v l IH]; intros [|J Js] H; simpl; auto. rewrite H by (left; auto). f_equal. apply IH. intros; apply H; right; auto.
Qed.

Definition bare_at (val : var -> pytree R) (f : factor R) : list R := bare (f_noise f) (residual_at E val f).
Lemma bare_length val f : legal E fs val -> In f fs -> length (bare_at val f) = residual_dim f.
Proof. intros Hl Hf. apply bare_ok; [apply (proj1 (Hok f Hf)) | apply (ws_residual E fs Hws val f Hl Hf)]. Qed.
Lemma effect_length x f : length x = n -> In f fs -> length (effect x f) = residual_dim f.
Proof. intros Hx Hf. apply bare_ok; [apply (proj1 (Hok f Hf)) | apply eff_length; auto]. Qed.
Lemma loss_at val f : legal E fs val -> In f fs -> followed_loss (f_noise f) (residual_at E val f) = profile (f_noise f) (vnorm (bare_at val f)).
Proof. intros Hl Hf. apply profile_loss; [apply (rp_noise _ _ RP f Hf) | apply (proj1 (Hok f Hf)) | apply (ws_residual E fs Hws val f Hl Hf)]. Qed.
Lemma bare_stepped a val b valb x f : holds E fs a val -> holds E fs b valb -> as_storage b = vadd (as_storage a) x -> length x = n -> In f fs -> bare_at valb f = vadd (bare_at val f) (effect x f).
Proof.
  intros Ha Hb Hs Hx Hf. unfold bare_at, effect. rewrite (stepped a val b valb x f) by auto. apply bare_add; [apply (rp_noise _ _ RP f Hf) | apply (proj1 (Hok f Hf)) | | apply eff_length; auto].
  apply (ws_residual E fs Hws val f (holds_legal E fs CO _ _ Ha) Hf).
Qed.
Lemma total_loss_profile val : legal E fs val -> total_loss E fs val = vsum (map (fun f => profile (f_noise f) (vnorm (bare_at val f))) fs).
Proof. intros Hl. unfold total_loss. f_equal. apply map_ext_in. intros f Hf. apply loss_at; auto. Qed.
Lemma loss_part val f : legal E fs val -> In f fs -> profile (f_noise f) (vnorm (bare_at val f)) <= total_loss E fs val.
Proof.
  intros Hl Hf. rewrite total_loss_profile by auto. assert (Hp : forall f', In f' fs -> 0 <= profile (f_noise f') (vnorm (bare_at val f'))) by (intros f' Hf'; apply profile_nonneg; [apply (rp_noise _ _ RP f' Hf') | apply norm_pos]).
  apply (part_le (fun f' => profile (f_noise f') (vnorm (bare_at val f'))) fs f Hf Hp).
Qed.
Lemma vsum_lin3 {X} (p q r : X -> R) k l : vsum (map (fun x => p x + q x + k * r x) l) = vsum (map p l) + vsum (map q l) + k * vsum (map r l).
Proof.
  induction l as [|x l IH]; [change (0 = 0 + 0 + k * 0); ring|].
  change (p x + q x + k * r x + vsum (map (fun x => p x + q x + k * r x) l) = p x + vsum (map p l) + (q x + vsum (map q l)) + k * (r x + vsum (map r l))). rewrite IH. ring.
Qed.

Definition modulus (l mu : R) : Prop := forall nm n m, In nm (map f_noise fs) -> 0 <= n -> 0 <= m -> profile nm n <= l -> profile nm m <= l ->
  mu <= gain nm n /\ profile nm n + gain nm n * n * (m - n) + mu / 2 * ((m - n) * (m - n)) <= profile nm m.
Lemma step_forms a val r A x : holds E fs a val -> compute_whitened_residual_vector E g a = Ok r -> compute_whitened_residual_jacobian E g a r = Ok A -> length x = n ->
  sumsq (mapply A x) <= bare_form x /\
  (forall b valb, holds E fs b valb -> as_storage b = vadd (as_storage a) x -> total_loss E fs valb <= total_loss E fs val + vdot (mapply A x) r + sumsq (mapply A x) / 2) /\
  (forall l mu, modulus l mu ->
   forall b valb, holds E fs b valb -> as_storage b = vadd (as_storage a) x -> total_loss E fs val <= l -> total_loss E fs valb <= l ->
   total_loss E fs val + vdot (mapply A x) r + mu / 2 * bare_form x <= total_loss E fs valb) /\
  (forall l mu, modulus l mu -> 0 <= mu -> total_loss E fs val <= l -> mu * bare_form x <= sumsq (mapply A x)).
Proof.
  intros Ha Er EA Hx. pose proof (holds_legal E fs CO _ _ Ha) as Hl.
  destruct (graph_forms E fs g CO Hok Hg Hne Hrd Hws a val r A x Ha Er EA Hx) as (F1 & F2 & F3). fold C L in F1, F2, F3. rewrite F1, F2.
  assert (HP : forall f, In f fs -> exists s q, wres E val f = vscale s (bare_at val f) /\ push E fs val x f = vscale q (effect x f) /\ 0 < q <= 1 /\ q * q = s /\ s * q = gain (f_noise f) (vnorm (bare_at val f))).
  { intros f Hf. destruct (F3 f Hf) as (w & Ws & Ew & EW & Hlw & HW & Hw1 & HW1). rewrite Hw1. unfold push. rewrite HW1. fold C L.
    destruct (factor_parts C L x (f_noise f) (f_vars f) (jacobians_at E val f) Ws (residual_at E val f) w) as (s & q & P1 & P2 & P3 & P4 & P5); auto.
    - apply (rp_noise _ _ RP f Hf).
    - apply (proj1 (Hok f Hf)).
    - intros v Hv. apply PDeriv.block_length; auto. apply mentioned_in. eauto.
    - apply (ws_jacobian E fs Hws val f Hl Hf).
    - apply (ws_residual E fs Hws val f Hl Hf).
    - exists s, q. split; auto. split; [unfold effect; rewrite <- (eff_jac val f Hl Hf); exact P2 | auto]. }
  split; [|split; [|split]].
  - unfold bare_form. apply vsum_le. intros f Hf. destruct (HP f Hf) as (s & q & _ & -> & Hq & _). rewrite sumsq_dot, vdot_scale_l, vdot_scale_r, <- sumsq_dot. pose proof (sumsq_nonneg (effect x f)). assert (q * q <= 1) by nra. nra.
  - intros b valb Hb Hs. rewrite !total_loss_profile by (auto; apply (holds_legal E fs CO _ _ Hb)).
    replace (vsum (map (fun f => sumsq (push E fs val x f)) fs) / 2) with (/ 2 * vsum (map (fun f => sumsq (push E fs val x f)) fs)) by (unfold Rdiv; ring). rewrite <- vsum_lin3. apply vsum_le.
    intros f Hf. destruct (HP f Hf) as (s & q & -> & -> & Hq & Hqs & Hsg). rewrite (bare_stepped a val b valb x f) by auto. rewrite (Rmult_comm (/ 2)). apply vector_above; auto; [apply (rp_noise _ _ RP f Hf)|].
    rewrite bare_length, effect_length; auto.
  - intros l mu HM b valb Hb Hs Hla Hlb. pose proof (holds_legal E fs CO _ _ Hb) as Hlb'. pose proof (loss_part val) as LPa. pose proof (loss_part valb) as LPb. rewrite !total_loss_profile by auto.
    unfold bare_form. rewrite <- vsum_lin3. apply vsum_le. intros f Hf. destruct (HP f Hf) as (s & q & -> & -> & Hq & Hqs & Hsg). pose proof (LPa f Hl Hf) as La. pose proof (LPb f Hlb' Hf) as Lb.
    pose proof (bare_stepped a val b valb x f Ha Hb Hs Hx Hf) as HB. rewrite HB in *.
    destruct (HM (f_noise f) (vnorm (bare_at val f)) (vnorm (vadd (bare_at val f) (effect x f)))) as (M1 & M2); [apply in_map; auto | apply norm_pos | apply norm_pos | lra | lra|].
    apply vector_below; auto; [rewrite bare_length, effect_length; auto|]. intros n' m' -> ->. exact M2.
  - intros l mu HM Hmu Hla. unfold bare_form. rewrite <- (vsum_map_scale mu (fun f => sumsq (effect x f))). apply vsum_le. intros f Hf. destruct (HP f Hf) as (s & q & _ & -> & Hq & Hqs & Hsg).
    pose proof (loss_part val f Hl Hf) as Lp. destruct (HM (f_noise f) (vnorm (bare_at val f)) (vnorm (bare_at val f))) as (M1 & _); [apply in_map; auto | apply norm_pos | apply norm_pos | lra | lra|].
    rewrite sumsq_dot, (sumsq_dot (vscale q _)), vdot_scale_l, vdot_scale_r, <- sumsq_dot. pose proof (sumsq_nonneg (effect x f)). rewrite <- Rmult_assoc. apply Rmult_le_compat_r; auto.
    rewrite <- Hsg, <- Hqs in M1. assert (q * q * q <= q * q) by nra. lra.
Qed.

End Robust.
