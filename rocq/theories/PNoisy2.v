(* Proofs: whitened residuals and costs of pose graphs with measurements that are a little off. *)
From Coq Require Import List Arith Bool Lia Reals Lra Psatz.
From Verif Require Import Num NumR Py Arr MLayout MAssign MNoise MSparse MFactor MGraph MLie MPose SpecLayout SpecTree SpecNoise SpecGraph SpecLie SpecPose SpecZero SpecSpatial SpecTwin SpecInv SpecOrder SpecBook SpecNear SpecBasin SpecNoisy PGraph PVec PLie PPose PFrame PSolverR PNoise PDescent PLocal PLin PTwin2 PFree PZero PJacZero PNear PSpatial PSpatial2 PSpatial3 PSpatial4 PBook PBasin4 PBasin5 PBasin6 PBasin7 PBasin8 PNoisy.
Import ListNotations.
Local Open Scope R_scope.

Section Off.
Variable groups : vty -> lie_ops R (list R).
Let E := pose_env groups.
Variable eps : R.

Lemma off_shape f f' : off_by groups eps f f' -> f_vars f' = f_vars f /\ f_noise f' = f_noise f /\ (forall val, jacobians_at E val f' = jacobians_at E val f).
Proof.
  intros [v mu n d Hd He|va vb Tab n d h h' Hd He H H']; [split; [|split]; reflexivity|]. apply between_inv in H. apply between_inv in H'. destruct H as (_ & ->). destruct H' as (_ & ->). split; [|split]; reflexivity.
Qed.
Lemma off_pose f f' : (forall v, In v (f_vars f) -> PZero.known (groups (v_ty v))) -> pose_factor groups f -> off_by groups eps f f' -> pose_factor groups f'.
Proof.
  intros Hk Hf Ho. revert Hk Ho. destruct Hf as [v mu n Hmu Hn Hd|va vb Tab n h Hbt Htab Hn Hd]; intros Hk Ho.
  - remember (prior_make v mu n) as h0 eqn:Eh0. destruct Ho as [v1 mu1 n1 x Lx Hx|va1 vb1 Tab1 n1 x h1 h1' Lx Hx H1 H1']; [|apply between_inv in H1; destruct H1 as (_ & ->); discriminate].
    injection Eh0 as -> -> ->. constructor; auto. eexists. split; [reflexivity|]. apply retract_dim. apply Hk. left. auto.
  - apply between_inv in Hbt. destruct Hbt as (Ht & ->). remember (mkFactor 1 [va; vb] n [Tab]) as h0 eqn:Eh0. destruct Ho as [v1 mu1 n1 x Lx Hx|va1 vb1 Tab1 n1 x h1 h1' Lx Hx H1 H1']; [discriminate|].
    apply between_inv in H1. destruct H1 as (_ & ->). injection Eh0 as -> -> -> ->.
    eapply pf_between; [exact H1' | | auto | auto]. eexists. split; [reflexivity|]. apply retract_dim. apply Hk. left. auto.
Qed.
End Off.

Section Factor.
Variable groups : vty -> lie_ops R (list R).
Let E := pose_env groups.
Variable z : var -> pytree R.
Variable f : factor R.
Hypothesis Hf : pose_factor groups f.
Hypothesis Hk : forall v, In v (f_vars f) -> PZero.known (groups (v_ty v)).
Hypothesis Hu : unit_measurement groups f.
Hypothesis Hm : measured groups z f.
Hypothesis Hz : forall v, In v (f_vars f) -> pose_value groups (v_ty v) (z v) /\ unit_pose (groups (v_ty v)) (params (z v)).
Notation dimv v := (lg_dim (groups (v_ty v))).
Notation push val eta := (pushed (residual_dim f) (f_vars f) (jacobians_at E val f) eta).
Notation sized := (sized groups f).
Notation bounded := (bounded f).
Notation placed := (placed groups z f).

Lemma factor_off : exists K d, 0 <= K /\ 0 < d /\ forall f' eps e val r, off_by groups eps f f' -> eps <= r -> sized e -> bounded e r -> r <= d -> placed e val ->
  vnorm (vsub (residual_at E val f') (push val e)) <= K * (r * r) + eps.
Proof.
  assert (Hs : forall t x, pose_value groups t x -> sized_pose (groups t) (params x)).
  { intros t x (p & -> & Hp). rewrite params_value. exact Hp. }
  unfold PBasin7.sized, PBasin7.bounded, PBasin7.placed in *. revert Hk Hu Hm Hz. destruct Hf as [v mu n Hmu Hn Hd|va vb Tab n h Hbt Htab Hn Hd]; intros Hk' Hu' Hm' Hz'.
  - destruct (Hz' v) as (Lv & Uv); [cbn; auto|]. pose proof (Hk' v (or_introl eq_refl)) as Kv. assert (Um : unit_pose (groups (v_ty v)) (params mu)) by (apply (Hu' v mu); cbn; auto).
    assert (Hm2 : same_pose (groups (v_ty v)) (params (z v)) (params mu)) by exact Hm'.
    destruct (off_prior_near _ Kv (params mu) (params (z v)) (conj (Hs _ _ Hmu) Um) (conj (Hs _ _ Lv) Uv) Hm2) as (K & d & HK & Hd0 & HN).
    exists K, d. split; auto. split; auto. intros f' eps e val r Ho Her Le Be Hr Hp. pose proof (Le v (or_introl eq_refl)) as Lev. pose proof (Be v (or_introl eq_refl)) as Bev.
    pose proof (Hp v (or_introl eq_refl)) as Ev. unfold residual_dim. cbn [prior_make f_noise]. rewrite Hd.
    remember (prior_make v mu n) as h0 eqn:Eh0. destruct Ho as [v1 mu1 n1 x Lx Hx|va1 vb1 Tab1 n1 x h1 h1' Lx Hx H1 H1']; [|apply between_inv in H1; destruct H1 as (_ & ->); discriminate].
    injection Eh0 as -> -> ->.
    change (vnorm (vsub (prior_residual (groups (v_ty v)) (params (group_value (v_ty v) (lie_retract (groups (v_ty v)) (params mu) x))) (params (val v))) (vadd (mvec (neg_eye (dimv v)) (e v)) (vzero (dimv v)))) <= K * (r * r) + eps).
    rewrite Ev, !params_value. rewrite !add_zero_r by (rewrite neg_eye_mvec, vneg_length; auto). rewrite neg_eye_mvec by auto.
    eapply Rle_trans; [apply (HN (e v) x r); auto; lra | lra].
  - pose proof (between_inv va vb Tab n h Hbt) as (Ht & ->). destruct (Hz' va) as (La & Ua); [cbn; auto|]. destruct (Hz' vb) as (Lb & Ub); [cbn; auto|].
    pose proof (Hk' va (or_introl eq_refl)) as Ka. assert (Ut : unit_pose (groups (v_ty va)) (params Tab)) by (apply (Hu' va Tab); cbn; auto).
    assert (Hm2 : same_pose (groups (v_ty va)) (lg_mul (groups (v_ty va)) (params (z va)) (params Tab)) (params (z vb))) by exact Hm'.
    apply Hs in Lb. rewrite <- Ht in Lb, Ub.
    destruct (off_between_near _ Ka (params Tab) (params (z va)) (params (z vb)) (conj (Hs _ _ Htab) Ut) (conj (Hs _ _ La) Ua) (conj Lb Ub) Hm2) as (K & d & HK & Hd0 & HN).
    exists K, d. split; auto. split; auto. intros f' eps e val r Ho Her Le Be Hr Hp. pose proof (Le va (or_introl eq_refl)) as Lea. pose proof (Be va (or_introl eq_refl)) as Bea. pose proof (Le vb (or_intror (or_introl eq_refl))) as Leb. pose proof (Be vb (or_intror (or_introl eq_refl))) as Beb.
    pose proof (Hp va (or_introl eq_refl)) as Ea. pose proof (Hp vb (or_intror (or_introl eq_refl))) as Eb. rewrite <- Ht in Leb, Eb. unfold residual_dim. cbn [f_noise]. rewrite Hd.
    remember (mkFactor 1 [va; vb] n [Tab]) as h0 eqn:Eh0. destruct Ho as [v1 mu1 n1 x Lx Hx|va1 vb1 Tab1 n1 x h1 h1' Lx Hx H1 H1']; [discriminate|].
    apply between_inv in H1. apply between_inv in H1'. destruct H1 as (_ & ->). destruct H1' as (_ & ->). injection Eh0 as -> -> -> ->.
    set (raw := groups (v_ty va)) in *. set (nn := lg_dim raw) in *.
    change (vnorm (vsub (between_residual raw (params (group_value (v_ty va) (lie_retract raw (params Tab) x))) (params (val va)) (params (val vb)))
        (vadd (mvec (lg_adj raw (lg_inv raw (lg_mul raw (lg_inv raw (params (val va))) (params (val vb))))) (e va)) (vadd (mvec (neg_eye nn) (e vb)) (vzero nn)))) <= K * (r * r) + eps).
    rewrite Ea, Eb, !params_value. pose proof (HN (e va) (e vb) x r Lea Leb Lx Bea Beb ltac:(lra) Hr) as H1.
    rewrite neg_eye_mvec by auto. rewrite add_zero_r by (rewrite vneg_length; auto). rewrite add_neg. eapply Rle_trans; [exact H1|]. lra.
Qed.

Hypothesis Hi : informative (f_noise f).
Lemma whitened_off : exists K d, 0 <= K /\ 0 < d /\ forall f' eps e val r, off_by groups eps f f' -> eps <= r -> sized e -> bounded e r -> r <= d -> placed e val ->
  (whitened_at E val f' = Ok (resf E val f') /\ forall eta, sized eta -> model_at E val val eta f' = sumsq (vadd (linf E val f eta) (resf E val f'))) /\
  length (resf E val f') = residual_dim f /\
  vnorm (vsub (resf E val f') (linf E val f e)) <= K * (r * r + eps).
Proof.
  destruct factor_off as (K0 & d0 & HK0 & Hd0 & HO). destruct (factor_near groups z f Hf Hk Hu Hm Hz) as (K & d & HK & Hd & HN). destruct (push_bounded groups z f Hf Hk Hz) as (C & HC & HP). pose proof (ok1 groups f Hf) as (Hn & _). pose proof (wl_lin (f_noise f) Hn) as WL.
  destruct (lin_bounded _ _ _ WL) as (c & Hc & HW). destruct (huber_near (f_noise f) Hn Hi) as (t & Ht & HA & HB).
  set (C1 := c * (K0 + 1 + K + C)). assert (HC1 : 0 <= C1) by (apply Rmult_le_pos; lra).
  exists (c * (K0 + 1)), (Rmin (Rmin 1 (Rmin d d0)) (t / (2 * (C1 + 1)))). split; [apply Rmult_le_pos; lra|]. assert (Hdt : 0 < t / (2 * (C1 + 1))) by (apply Rdiv_lt_0_compat; lra).
  split; [repeat apply Rmin_pos; auto; lra|]. intros f' eps e val r Ho Her He Be Hr Hp. pose proof (bounded_pos groups f Hf e r Be) as Pr.
  assert (R1 : r <= 1) by (eapply Rle_trans; [exact Hr|]; eapply Rle_trans; [apply Rmin_l|apply Rmin_l]).
  assert (R2 : r <= d) by (eapply Rle_trans; [exact Hr|]; eapply Rle_trans; [apply Rmin_l|]; eapply Rle_trans; [apply Rmin_r | apply Rmin_l]).
  assert (R2' : r <= d0) by (eapply Rle_trans; [exact Hr|]; eapply Rle_trans; [apply Rmin_l|]; eapply Rle_trans; [apply Rmin_r | apply Rmin_r]).
  assert (R3 : r <= t / (2 * (C1 + 1))) by (eapply Rle_trans; [exact Hr|]; apply Rmin_r).
  assert (Pe : 0 <= eps). { destruct Ho as [? ? ? x _ Hx|? ? ? ? x ? ? _ Hx _ _]; (eapply Rle_trans; [apply (norm_pos x)|exact Hx]). }
  destruct (HN e val r He Be R2 Hp) as (_ & H2). pose proof (HO f' eps e val r Ho Her He Be R2' Hp) as H1. pose proof (off_shape groups eps f f' Ho) as (EV & EN & EJ). pose proof (off_pose groups eps f f' Hk Hf Ho) as Hf'.
  pose proof (placed_legal groups z f Hk e val Hp) as Lv. pose proof (z_legal groups z f Hz) as Lz.
  assert (Hk' : forall v, In v (f_vars f') -> PZero.known (groups (v_ty v))) by (rewrite EV; auto).
  assert (Lv' : forall v, In v (mentioned [f']) -> value_ok (e_cls E (v_ty v)) (val v)).
  { intros v Hv. apply Lv. apply in_one in Hv. rewrite EV in Hv. apply mentioned_in. exists f. split; [left|]; auto. }
  pose proof (res_len groups f' Hf' Hk' val Lv') as L1. fold E in L1. assert (L2 : forall eta, length (push val eta) = residual_dim f) by (intros; apply push_len; auto). assert (L3 : forall eta, length (push z eta) = residual_dim f) by (intros; apply push_len; auto).
  assert (EL : forall eta, linf E val f' eta = linf E val f eta) by (intros eta; unfold linf, residual_dim; rewrite EV, EN, EJ; reflexivity).
  pose proof (resf_length groups f' Hf' Hk' val Lv') as L4. fold E in L4. unfold residual_dim in *. rewrite EN in L1, L4.
  assert (Hsm : vnorm (wl (base (f_noise f)) (residual_at E val f')) < t).
    { eapply Rle_lt_trans; [apply HW; auto|]. assert (B1 : vnorm (residual_at E val f') <= K0 * (r * r) + eps + (K * r * r + C * r)).
      { eapply Rle_trans; [apply (norm_split _ (pushed (noise_dim (f_noise f)) (f_vars f) (jacobians_at E val f) e)); rewrite L2; auto|]. apply Rplus_le_compat; auto.
        eapply Rle_trans; [apply (norm_split _ (pushed (noise_dim (f_noise f)) (f_vars f) (jacobians_at E z f) e)); rewrite L2, L3; auto|]. apply Rplus_le_compat; [apply H2; auto | apply HP; auto]. }
      assert (B2 : K * (r * r) <= K * r) by (apply Rmult_le_compat_l; auto; nra). assert (B2' : K0 * (r * r) <= K0 * r) by (apply Rmult_le_compat_l; auto; nra). assert (B3 : vnorm (residual_at E val f') <= (K0 + 1 + K + C) * r) by lra.
      assert (B4 : c * vnorm (residual_at E val f') <= C1 * r) by (unfold C1; rewrite Rmult_assoc; apply Rmult_le_compat_l; auto).
      eapply Rle_lt_trans; [exact B4|]. assert (B5 : C1 * r <= C1 * (t / (2 * (C1 + 1)))) by (apply Rmult_le_compat_l; auto). eapply Rle_lt_trans; [exact B5|].
      apply (Rmult_lt_reg_r (2 * (C1 + 1))); [lra|]. replace (C1 * (t / (2 * (C1 + 1))) * (2 * (C1 + 1))) with (C1 * t) by (field; lra). nra. }
  split; [split|split; [exact L4|]].
  - unfold whitened_at, resf. rewrite EN. rewrite white_res, (HA _ L1 Hsm), vscale_one by auto. reflexivity.
  - intros eta Heta. rewrite (model_formula E val val eta f'); [|apply (ok1 groups f' Hf') | exact (eq_trans L1 (eq_sym (f_equal noise_dim EN))) | apply (ws_jacobian E [f'] (shaped1 groups f' Hf' Hk') val f' Lv' (or_introl eq_refl)) | rewrite EV; auto].
    rewrite EN. rewrite (HA _ L1 Hsm), vscale_one, (HB _ Hsm). unfold mixed. rewrite !vscale_one. rewrite <- EL. unfold linf, resf. rewrite EN. f_equal. apply wl_add; [apply base_linear | apply base_ok; auto | rewrite base_dim; unfold residual_dim; rewrite EV, EN, EJ; auto | rewrite base_dim; auto].
  - unfold resf, linf, residual_dim. rewrite EN. rewrite <- (lin_sub _ _ _ _ _ WL) by auto.
    eapply Rle_trans; [apply HW; rewrite vsub_length; rewrite ?L2; auto|]. rewrite Rmult_assoc. apply Rmult_le_compat_l; auto. eapply Rle_trans; [exact H1|]. assert (0 <= r * r) by nra. assert (0 <= K0 * eps) by (apply Rmult_le_pos; auto). lra.
Qed.
End Factor.
