(* Proofs: one damped step near poses at which all measurements hold. *)
From Coq Require Import List Arith Bool Lia Reals Lra Psatz.
From Verif Require Import Num NumR Py Arr MLayout MAssign MNoise MSparse MFactor MGraph MLie MPose SpecLayout SpecTree SpecNoise SpecGraph SpecLie SpecPose SpecZero SpecSpatial SpecTwin SpecInv SpecOrder SpecBook SpecNear SpecBasin PGraph PVec PLie PPose PFrame PSolverR PNoise PDescent PLocal PLin PTwin2 PFree PZero PJacZero PNear PSpatial PSpatial2 PSpatial3 PSpatial4 PBook PBasin4 PBasin5 PBasin6 PBasin7.
Import ListNotations.
Local Open Scope R_scope.

(* the algebra of one damped step; K1 bounds the change of the Jacobian, K2 the remainder *)
Lemma shrink_bound m K beta d a : 0 < m -> 0 <= K -> 0 < beta -> 0 <= d -> 2 * K * d <= m -> (((m - K * d) * (m - K * d)) + beta) * a <= beta * d + (m - K * d) * (K * (d * d)) -> 0 <= a ->
  a <= (beta / (m * m + beta) + 12 * K / m * d) * d.
Proof.
  intros Hm HK Hb Hd Hs H Ha. set (k := m - K * d) in *. assert (Kd : 0 <= K * d) by (apply Rmult_le_pos; auto). assert (Hk : m / 2 <= k <= m) by (unfold k; lra).
  assert (Hk2 : 0 < k * k + beta) by nra. assert (Hm2 : 0 < m * m + beta) by nra.
  apply (Rmult_le_reg_l (k * k + beta)); auto. eapply Rle_trans; [exact H|].
  assert (P : beta * d <= (k * k + beta) * (beta / (m * m + beta)) * d + 2 * m * K * d * d).
  { assert (E : (k * k + beta) * (beta / (m * m + beta)) * d = beta * d - (m * m - k * k) * d * (beta / (m * m + beta))) by (field; lra). rewrite E.
    assert (Hq : 0 <= beta / (m * m + beta) <= 1). { split; [apply Rlt_le, Rdiv_lt_0_compat; auto|]. apply (Rmult_le_reg_r (m * m + beta)); auto. replace (beta / (m * m + beta) * (m * m + beta)) with beta by (field; lra). nra. }
    assert (G : m * m - k * k <= 2 * m * (K * d)) by (unfold k; nra). assert (G0 : 0 <= m * m - k * k) by nra.
    assert (G1 : (m * m - k * k) * d * (beta / (m * m + beta)) <= (m * m - k * k) * d * 1) by (apply Rmult_le_compat_l; [apply Rmult_le_pos; auto | lra]).
    assert (G2 : (m * m - k * k) * d <= 2 * m * (K * d) * d) by (apply Rmult_le_compat_r; auto). lra. }
  assert (Q : k * (K * (d * d)) + 2 * m * K * d * d <= (k * k + beta) * (12 * K / m * d) * d).
  { assert (D2 : 0 <= K * (d * d)) by (apply Rmult_le_pos; nra). assert (Q1 : k * (K * (d * d)) <= m * (K * (d * d))) by (apply Rmult_le_compat_r; lra).
    assert (Q2 : 3 * m * (K * (d * d)) <= k * k * (12 * K / m * d) * d).
    { replace (k * k * (12 * K / m * d) * d) with (k * k * 12 / m * (K * (d * d))) by (field; lra). apply Rmult_le_compat_r; auto. apply (Rmult_le_reg_r m); auto. replace (k * k * 12 / m * m) with (k * k * 12) by (field; lra). nra. }
    assert (Q3 : 0 <= beta * (12 * K / m * d) * d). { replace (beta * (12 * K / m * d) * d) with (beta * (12 / m) * (K * (d * d))) by (field; lra). apply Rmult_le_pos; auto. apply Rmult_le_pos; [lra|]. apply Rlt_le, Rdiv_lt_0_compat; lra. }
    lra. }
  lra.
Qed.
(* P u + w stationary in the direction u, damped *)
Lemma damped_core m beta (p w u e : list R) : 0 < m -> 0 < beta -> length p = length w -> length u = length e ->
  m * vnorm u <= vnorm p -> vnorm w <= 2 * m * vnorm e -> vdot p (vadd p w) + beta * vdot u (vsub u e) = 0 ->
  (m * m + beta) * vnorm u <= beta * vnorm e + m * vnorm w.
Proof.
  intros Hm Hb Lp Lu Hlow Hw H. rewrite vdot_add_r, vdot_sub_r in H by congruence. rewrite <- !sumsq_dot in H. destruct (vnorm_sq p) as (P0 & P1). destruct (vnorm_sq u) as (U0 & U1).
  pose proof (norm_pos e) as E0. pose proof (norm_pos w) as W0. pose proof (dot_le_norms u e Lu) as D1. pose proof (dot_le_norms p (vneg w) ltac:(rewrite vneg_length; auto)) as D2. rewrite vdot_neg_r, norm_neg in D2.
  apply (scalar_bound m beta (vnorm u) (vnorm p) (beta * vnorm e) (vnorm w) (vnorm e)); auto; try lra.
  rewrite P1, U1. assert (beta * vdot u e <= beta * (vnorm u * vnorm e)) by (apply Rmult_le_compat_l; lra). lra.
Qed.

Section Graph.
Variable groups : vty -> lie_ops R (list R).
Variable fs : list (factor R).
Variable z : var -> pytree R.
Hypothesis SB : solved_by groups fs z.
Let E := pose_env groups.
Notation dimv v := (lg_dim (groups (v_ty v))).
Notation field := (var -> list R).
Definition LL (val : var -> pytree R) (eta : field) : list R := flat_map (fun f => linf E val f eta) fs.
Definition RR (val : var -> pytree R) : list R := flat_map (resf E val) fs.
Definition flatv (xi : field) : list R := flat_map xi (mentioned fs).

Lemma men f v : In f fs -> In v (f_vars f) -> In v (mentioned fs).
Proof. intros. apply mentioned_in. eauto. Qed.
Lemma kn v : In v (mentioned fs) -> PZero.known (groups (v_ty v)). Proof. apply (sb_groups _ _ _ SB). Qed.
Lemma size_flat xi : size fs xi = vnorm (flatv xi).
Proof. unfold size, flatv, inner. unfold vnorm. rn. f_equal. rewrite flat_sumsq. f_equal. apply map_ext. intros v. symmetry. apply sumsq_dot. Qed.
Lemma size_pos xi : 0 <= size fs xi. Proof. rewrite size_flat. apply norm_pos. Qed.
Lemma size_part xi v : In v (mentioned fs) -> vnorm (xi v) <= size fs xi.
Proof. intros H. rewrite size_flat. apply flat_part. auto. Qed.
Lemma placed_of e val f : moved E fs z e val -> In f fs -> placed groups z f e val.
Proof. intros H Hf v Hv. specialize (H v (men f v Hf Hv)). cbn in H. injection H as H. auto. Qed.
Lemma legal_of e val : moved E fs z e val -> forall v, In v (mentioned fs) -> value_ok (e_cls E (v_ty v)) (val v).
Proof. intros H v Hv. specialize (H v Hv). cbn in H. injection H as <-. apply pose_value_ok. eexists. split; [reflexivity|]. apply retract_dim. apply kn; auto. Qed.
Lemma legal_z : forall v, In v (mentioned fs) -> value_ok (e_cls E (v_ty v)) (z v).
Proof. intros v Hv. apply pose_value_ok. apply (sb_values _ _ _ SB). auto. Qed.
Lemma legal1 val f : In f fs -> (forall v, In v (mentioned fs) -> value_ok (e_cls E (v_ty v)) (val v)) -> forall v, In v (mentioned [f]) -> value_ok (e_cls E (v_ty v)) (val v).
Proof. intros Hf H v Hv. apply H. apply (men f); auto. apply in_one; auto. Qed.

Lemma near_uniform l : incl l fs -> exists K d, 0 <= K /\ 0 < d /\ forall f, In f l -> forall e val r, sized groups f e -> bounded f e r -> r <= d -> placed groups z f e val ->
  (whitened_at E val f = Ok (resf E val f) /\ forall eta, sized groups f eta -> model_at E val val eta f = sumsq (vadd (linf E val f eta) (resf E val f))) /\
  vnorm (vsub (resf E val f) (linf E val f e)) <= K * (r * r) /\
  (forall eta s, sized groups f eta -> bounded f eta s -> vnorm (vsub (linf E val f eta) (linf E z f eta)) <= K * r * s).
Proof.
  induction l as [|f l IH]; intros Hl; [exists 0, 1; split; [lra|]; split; [lra|]; intros f []|].
  destruct IH as (K1 & d1 & HK1 & Hd1 & H1); [intros h Hh; apply Hl; right; auto|]. assert (Hf : In f fs) by (apply Hl; left; auto).
  destruct (sb_factors _ _ _ SB f Hf) as (Pf & Inf & Um & Me).
  destruct (whitened_near groups z f Pf (fun v Hv => kn v (men f v Hf Hv)) Um Me (fun v Hv => sb_values _ _ _ SB v (men f v Hf Hv)) Inf) as (K2 & d2 & HK2 & Hd2 & H2).
  exists (Rmax K1 K2), (Rmin d1 d2). assert (M1 : K1 <= Rmax K1 K2) by apply Rmax_l. assert (M2 : K2 <= Rmax K1 K2) by apply Rmax_r.
  split; [lra|]. split; [apply Rmin_pos; auto|].
  assert (Fin : forall h, In h fs -> forall K, 0 <= K -> K <= Rmax K1 K2 -> forall e val r, bounded h e r ->
    (whitened_at E val h = Ok (resf E val h) /\ forall eta, sized groups h eta -> model_at E val val eta h = sumsq (vadd (linf E val h eta) (resf E val h))) /\
    vnorm (vsub (resf E val h) (linf E val h e)) <= K * (r * r) /\ (forall eta s, sized groups h eta -> bounded h eta s -> vnorm (vsub (linf E val h eta) (linf E z h eta)) <= K * r * s) ->
    (whitened_at E val h = Ok (resf E val h) /\ forall eta, sized groups h eta -> model_at E val val eta h = sumsq (vadd (linf E val h eta) (resf E val h))) /\
    vnorm (vsub (resf E val h) (linf E val h e)) <= Rmax K1 K2 * (r * r) /\ (forall eta s, sized groups h eta -> bounded h eta s -> vnorm (vsub (linf E val h eta) (linf E z h eta)) <= Rmax K1 K2 * r * s)).
  { intros h Hh K HK HM e val r Be (G1 & G2 & G3). destruct (sb_factors _ _ _ SB h Hh) as (Ph & _). pose proof (bounded_pos groups h Ph e r Be) as Pr. split; auto. split.
    - eapply Rle_trans; [exact G2|]. apply Rmult_le_compat_r; auto. nra.
    - intros eta s Le Bs. pose proof (bounded_pos groups h Ph eta s Bs) as Ps. eapply Rle_trans; [apply G3; eauto|]. apply Rmult_le_compat_r; auto. apply Rmult_le_compat_r; auto. }
  intros h [<-|Hh] e val r Le Be Hr Hp.
  - apply (Fin f Hf K2 HK2 M2 e val r Be). apply H2; auto. eapply Rle_trans; [exact Hr | apply Rmin_r].
  - apply (Fin h (Hl h (or_intror Hh)) K1 HK1 M1 e val r Be). apply H1; auto. eapply Rle_trans; [exact Hr | apply Rmin_l].
Qed.

Lemma tangent_sized xi f : tangent E fs xi -> In f fs -> sized groups f xi.
Proof. intros H Hf v Hv. apply (H v). apply (men f); auto. Qed.
Lemma linf_len val f eta : In f fs -> (forall v, In v (mentioned fs) -> value_ok (e_cls E (v_ty v)) (val v)) -> length (linf E val f eta) = residual_dim f.
Proof. intros Hf Lv. destruct (sb_factors _ _ _ SB f Hf) as (Pf & _). apply linf_length; auto; [intros v Hv; apply kn, (men f); auto | apply legal1; auto]. Qed.
Lemma resf_len val f : In f fs -> (forall v, In v (mentioned fs) -> value_ok (e_cls E (v_ty v)) (val v)) -> length (resf E val f) = residual_dim f.
Proof. intros Hf Lv. destruct (sb_factors _ _ _ SB f Hf) as (Pf & _). apply resf_length; auto; [intros v Hv; apply kn, (men f); auto | apply legal1; auto]. Qed.

Lemma LL_move val xi nu t : (forall v, In v (mentioned fs) -> value_ok (e_cls E (v_ty v)) (val v)) -> tangent E fs xi -> tangent E fs nu ->
  LL val (fun v => vadd (xi v) (vscale t (nu v))) = vadd (LL val xi) (vscale t (LL val nu)).
Proof.
  intros Lv Hx Hn. unfold LL. rewrite flat_scale, flat_add by (intros f Hf; rewrite vscale_length, !linf_len; auto). apply flat_ext. intros f Hf. destruct (sb_factors _ _ _ SB f Hf) as (Pf & _).
  apply linf_move; auto; [intros v Hv; apply kn, (men f); auto | apply legal1; auto | apply tangent_sized; auto | apply tangent_sized; auto].
Qed.
Lemma LL_len val eta : (forall v, In v (mentioned fs) -> value_ok (e_cls E (v_ty v)) (val v)) -> length (LL val eta) = total residual_dim fs.
Proof. intros Lv. unfold LL, total. assert (Hl : forall f, In f fs -> length (linf E val f eta) = residual_dim f) by (intros; apply linf_len; auto). revert Hl. clear. induction fs as [|f l IH]; intros Hl; auto. cbn [flat_map map]. rewrite app_length, Hl by (left; auto). cbn. rewrite IH; auto. intros; apply Hl; right; auto. Qed.
Lemma RR_len val : (forall v, In v (mentioned fs) -> value_ok (e_cls E (v_ty v)) (val v)) -> length (RR val) = total residual_dim fs.
Proof. intros Lv. unfold RR, total. assert (Hl : forall f, In f fs -> length (resf E val f) = residual_dim f) by (intros; apply resf_len; auto). revert Hl. clear. induction fs as [|f l IH]; intros Hl; auto. cbn [flat_map map]. rewrite app_length, Hl by (left; auto). cbn. rewrite IH; auto. intros; apply Hl; right; auto. Qed.

Lemma graph_near : exists K d, 0 <= K /\ 0 < d /\ forall e val r, tangent E fs e -> size fs e <= r -> r <= d -> moved E fs z e val ->
  (cost_at E fs val = sumsq (RR val) /\ forall eta, tangent E fs eta -> model E fs val val eta = sumsq (vadd (LL val eta) (RR val))) /\
  vnorm (vsub (RR val) (LL val e)) <= K * (r * r) /\
  (forall eta, tangent E fs eta -> vnorm (vsub (LL val eta) (LL z eta)) <= K * r * size fs eta).
Proof.
  destruct (near_uniform fs (incl_refl fs)) as (K & d & HK & Hd & HN). exists (INR (length fs) * K), d. split; [apply Rmult_le_pos; auto; apply pos_INR|]. split; auto.
  intros e val r Te Se Hr Hm. pose proof (legal_of e val Hm) as Lv. pose proof legal_z as Lz.
  assert (HF : forall f, In f fs -> (whitened_at E val f = Ok (resf E val f) /\ forall eta, sized groups f eta -> model_at E val val eta f = sumsq (vadd (linf E val f eta) (resf E val f))) /\
    vnorm (vsub (resf E val f) (linf E val f e)) <= K * (r * r) /\
    (forall eta s, sized groups f eta -> bounded f eta s -> vnorm (vsub (linf E val f eta) (linf E z f eta)) <= K * r * s)).
  { intros f Hf. apply (HN f Hf); auto; [apply tangent_sized; auto | | apply placed_of; auto]. intros v Hv. eapply Rle_trans; [apply size_part, (men f); auto | auto]. }
  split; [|split].
  - split; [unfold cost_at, RR; rewrite flat_sumsq; apply vsum_map_ext; intros f Hf; destruct (HF f Hf) as ((-> & _) & _); reflexivity|].
    intros eta Te'. unfold model, LL, RR. rewrite flat_add by (intros f Hf; rewrite linf_len, resf_len; auto). rewrite flat_sumsq. apply vsum_map_ext. intros f Hf. apply (HF f Hf). apply tangent_sized; auto.
  - unfold LL, RR. rewrite flat_sub by (intros f Hf; rewrite linf_len, resf_len; auto). rewrite Rmult_assoc. apply flat_norm. intros f Hf. apply (HF f Hf).
  - intros eta Te'. unfold LL. rewrite flat_sub by (intros f Hf; rewrite !linf_len; auto). rewrite !Rmult_assoc. apply flat_norm. intros f Hf. rewrite <- Rmult_assoc. apply (HF f Hf); [apply tangent_sized; auto|].
    intros v Hv. apply size_part, (men f); auto.
Qed.
End Graph.
