(* Proofs: damped steps and Gauss-Newton iterations on pose graphs with measurements that are a
   little off. *)
From Coq Require Import List Arith Bool Lia Reals Lra Psatz.
From Verif Require Import Num NumR Py Arr MLayout MAssign MNoise MSparse MFactor MGraph MLie MPose SpecLayout SpecTree SpecAssign SpecNoise SpecGraph SpecLie SpecPose SpecZero SpecSpatial SpecTwin SpecInv SpecOrder SpecBook SpecNear SpecBasin SpecNoisy PGraph PVec PLie PPose PFrame PSolverR PNoise PDescent PLocal PLin PLinDl POrder PTwin2 PFree PZero PJacZero PNear PSpatial PSpatial2 PSpatial3 PSpatial4 PBook PBasin4 PBasin5 PBasin6 PBasin7 PBasin8 PBasin9 PBasin11 PNoisy2.
Import ListNotations.
Local Open Scope R_scope.

Lemma noisy_core m beta (p w u e : list R) : 0 < m -> 0 < beta -> length p = length w -> length u = length e ->
  m * vnorm u <= vnorm p -> vdot p (vadd p w) + beta * vdot u (vsub u e) = 0 ->
  vnorm u <= beta / (m * m + beta) * vnorm e + vnorm w / m.
Proof.
  intros Hm Hb Lp Lu Hlow H. rewrite vdot_add_r, vdot_sub_r in H by congruence. rewrite <- !sumsq_dot in H. destruct (vnorm_sq p) as (P0 & P1). destruct (vnorm_sq u) as (U0 & U1).
  pose proof (norm_pos e) as E0. pose proof (norm_pos w) as W0. pose proof (dot_le_norms u e Lu) as D1. pose proof (dot_le_norms p (vneg w) ltac:(rewrite vneg_length; auto)) as D2. rewrite vdot_neg_r, norm_neg in D2.
  set (P := vnorm p) in *. set (U := vnorm u) in *. set (W := vnorm w) in *. set (e0 := vnorm e) in *.
  assert (H' : P * P + beta * (U * U) <= P * W + beta * (U * e0)). { rewrite P1, U1. assert (beta * vdot u e <= beta * (U * e0)) by (apply Rmult_le_compat_l; lra). lra. }
  assert (Hmm : 0 < m * m + beta) by nra. assert (Hq : 0 <= beta / (m * m + beta) * e0) by (apply Rmult_le_pos; auto; apply Rlt_le, Rdiv_lt_0_compat; auto).
  assert (HWm : 0 <= W / m) by (apply Rmult_le_pos; auto; apply Rlt_le, Rinv_0_lt_compat; auto).
  destruct (Rle_lt_dec (W / 2) (m * U)) as [Hc|Hc].
  - assert (G : (m * U) * (m * U) - W * (m * U) <= P * P - P * W). { assert (0 <= (P - m * U) * (P + m * U - W)) by (apply Rmult_le_pos; lra). lra. }
    destruct U0 as [U0|U0]; [|rewrite <- U0; lra].
    assert (G2 : (m * m + beta) * U <= m * W + beta * e0). { apply (Rmult_le_reg_l U); auto. lra. }
    apply (Rmult_le_reg_l (m * m + beta)); auto. eapply Rle_trans; [exact G2|].
    replace ((m * m + beta) * (beta / (m * m + beta) * e0 + W / m)) with (beta * e0 + m * W + beta * (W / m)) by (field; lra). assert (0 <= beta * (W / m)) by (apply Rmult_le_pos; lra). lra.
  - assert (U <= W / m). { apply (Rmult_le_reg_l m); auto. replace (m * (W / m)) with W by (field; lra). lra. } lra.
Qed.
(* the Jacobian at the current values instead of the one at z *)
Lemma rate_shift m K beta r : 0 < m -> 0 <= K -> 0 < beta -> 0 <= r -> 2 * K * r <= m -> beta / ((m - K * r) * (m - K * r) + beta) <= beta / (m * m + beta) + 2 * K / m * r.
Proof.
  intros Hm HK Hb Hr Hs. set (k := m - K * r). assert (Kr : 0 <= K * r) by (apply Rmult_le_pos; auto). assert (Hk : m / 2 <= k <= m) by (unfold k; lra).
  assert (Hk2 : 0 < k * k + beta) by nra. assert (Hm2 : 0 < m * m + beta) by nra.
  assert (E : beta / (k * k + beta) - beta / (m * m + beta) = (beta / (k * k + beta)) * ((m * m - k * k) / (m * m + beta))) by (field; lra).
  assert (Q1 : 0 <= beta / (k * k + beta) <= 1). { split; [apply Rlt_le, Rdiv_lt_0_compat; auto|]. apply (Rmult_le_reg_r (k * k + beta)); auto. replace (beta / (k * k + beta) * (k * k + beta)) with beta by (field; lra). nra. }
  assert (Q2 : 0 <= (m * m - k * k) / (m * m + beta) <= 2 * K / m * r).
  { split; [apply Rmult_le_pos; [nra | apply Rlt_le, Rinv_0_lt_compat; auto]|]. apply (Rmult_le_reg_r (m * m + beta)); auto. replace ((m * m - k * k) / (m * m + beta) * (m * m + beta)) with (m * m - k * k) by (field; lra).
    replace (2 * K / m * r * (m * m + beta)) with (2 * (K * r) * m + 2 * (K * r) / m * beta) by (field; lra). assert (0 <= 2 * (K * r) / m * beta) by (apply Rmult_le_pos; [|lra]; apply Rmult_le_pos; [lra | apply Rlt_le, Rinv_0_lt_compat; auto]).
    assert (m * m - k * k <= 2 * (K * r) * m) by (unfold k; nra). lra. }
  fold k. nra.
Qed.

Section Graph.
Variable groups : vty -> lie_ops R (list R).
Variable fs : list (factor R).
Variable z : var -> pytree R.
Hypothesis SB : solved_by groups fs z.
Let E := pose_env groups.
Notation dimv v := (lg_dim (groups (v_ty v))).
Notation field := (var -> list R).
Notation LL := (LL groups fs).
Notation flatv := (flatv fs).
Notation legal val := (forall v, In v (mentioned fs) -> value_ok (e_cls E (v_ty v)) (val v)).
Notation plus xi t nu := (fun v => vadd (xi v) (vscale t (nu v))).

Lemma noisy_pairs eps fs' : noisy groups eps fs fs' -> exists ps, fs = map fst ps /\ fs' = map snd ps /\ forall p, In p ps -> off_by groups eps (fst p) (snd p) /\ In (fst p) fs.
Proof.
  clear SB. intros H. induction H as [|f f' l l' Hf H (ps & -> & -> & IH)]; [exists []; split; [|split]; auto; intros p []|].
  exists ((f, f') :: ps). split; auto. split; auto. intros p [<-|Hp]; [split; auto; left; auto|]. destruct (IH p Hp). split; auto. right. auto.
Qed.
Lemma noisy_mentioned eps fs' : noisy groups eps fs fs' -> mentioned fs' = mentioned fs.
Proof.
  intros H. unfold mentioned. f_equal. destruct (noisy_pairs eps fs' H) as (ps & -> & -> & Hp). clear SB H. assert (Hp' : forall p, In p ps -> off_by groups eps (fst p) (snd p)) by (intros p Hi; apply (Hp p Hi)). clear Hp.
  induction ps as [|p ps IH]; auto. cbn [map flat_map]. destruct (off_shape groups eps _ _ (Hp' p (or_introl eq_refl))) as (-> & _). f_equal. apply IH. intros; apply Hp'; right; auto.
Qed.

Lemma off_uniform l : incl l fs -> exists K d, 0 <= K /\ 0 < d /\ forall f, In f l -> forall f' eps e val r, off_by groups eps f f' -> eps <= r -> sized groups f e -> bounded f e r -> r <= d -> placed groups z f e val ->
  (whitened_at E val f' = Ok (resf E val f') /\ forall eta, sized groups f eta -> model_at E val val eta f' = sumsq (vadd (linf E val f eta) (resf E val f'))) /\
  length (resf E val f') = residual_dim f /\ vnorm (vsub (resf E val f') (linf E val f e)) <= K * (r * r + eps).
Proof.
  induction l as [|f l IH]; intros Hl; [exists 0, 1; split; [lra|]; split; [lra|]; intros f []|].
  destruct IH as (K1 & d1 & HK1 & Hd1 & H1); [intros h Hh; apply Hl; right; auto|]. assert (Hf : In f fs) by (apply Hl; left; auto).
  destruct (sb_factors _ _ _ SB f Hf) as (Pf & Inf & Um & Me).
  destruct (whitened_off groups z f Pf (fun v Hv => kn groups fs z SB v (men fs f v Hf Hv)) Um Me (fun v Hv => sb_values _ _ _ SB v (men fs f v Hf Hv)) Inf) as (K2 & d2 & HK2 & Hd2 & H2).
  exists (Rmax K1 K2), (Rmin d1 d2). assert (M1 : K1 <= Rmax K1 K2) by apply Rmax_l. assert (M2 : K2 <= Rmax K1 K2) by apply Rmax_r.
  split; [lra|]. split; [apply Rmin_pos; auto|]. intros h Hh f' eps e val r Ho He Le Be Hr Hp.
  assert (Pe : 0 <= eps). { destruct Ho as [? ? ? x _ Hx|? ? ? ? x ? ? _ Hx _ _]; (eapply Rle_trans; [apply (norm_pos x)|exact Hx]). }
  assert (Pr : 0 <= r * r + eps) by nra. destruct Hh as [<-|Hh].
  - destruct (H2 f' eps e val r Ho He Le Be ltac:(eapply Rle_trans; [exact Hr | apply Rmin_r]) Hp) as (G1 & G2 & G3). split; auto. split; auto. eapply Rle_trans; [exact G3|]. apply Rmult_le_compat_r; auto.
  - destruct (H1 h Hh f' eps e val r Ho He Le Be ltac:(eapply Rle_trans; [exact Hr | apply Rmin_l]) Hp) as (G1 & G2 & G3). split; auto. split; auto. eapply Rle_trans; [exact G3|]. apply Rmult_le_compat_r; auto.
Qed.

Lemma flat_of_pairs {X Y Z} (g : Y -> list Z) (h : X -> Y) (l : list X) : flat_map g (map h l) = flat_map (fun x => g (h x)) l.
Proof. induction l as [|x l IH]; auto. cbn [map flat_map]. rewrite IH. auto. Qed.

Lemma graph_off : exists K d, 0 <= K /\ 0 < d /\ forall eps fs' e val r, noisy groups eps fs fs' -> eps <= r -> tangent E fs e -> size fs e <= r -> r <= d -> moved E fs z e val ->
  let W := RR groups fs' val in length W = total residual_dim fs /\ cost_at E fs' val = sumsq W /\
  (forall eta, tangent E fs eta -> model E fs' val val eta = sumsq (vadd (LL val eta) W)) /\
  vnorm (vsub W (LL val e)) <= K * (r * r + eps).
Proof.
  destruct (off_uniform fs (incl_refl fs)) as (K & d & HK & Hd & HN). exists (INR (length fs) * K), d. split; [apply Rmult_le_pos; auto; apply pos_INR|]. split; auto.
  intros eps fs' e val r Hno Her Te Se Hr Hm W. pose proof (legal_of groups fs z SB e val Hm) as Lv.
  destruct (noisy_pairs eps fs' Hno) as (ps & Efs & -> & Hp).
  assert (HF : forall p, In p ps -> (whitened_at E val (snd p) = Ok (resf E val (snd p)) /\ forall eta, sized groups (fst p) eta -> model_at E val val eta (snd p) = sumsq (vadd (linf E val (fst p) eta) (resf E val (snd p)))) /\
    length (resf E val (snd p)) = residual_dim (fst p) /\ vnorm (vsub (resf E val (snd p)) (linf E val (fst p) e)) <= K * (r * r + eps)).
  { intros p Hin. destruct (Hp p Hin) as (Ho & Hf). apply (HN (fst p) Hf (snd p) eps e val r); auto; [apply (tangent_sized groups fs); auto | | apply (placed_of groups fs z); auto]. intros v Hv. eapply Rle_trans; [apply (size_part fs), (men fs (fst p)); auto | auto]. }
  assert (EW : W = flat_map (fun p => resf E val (snd p)) ps) by (unfold W, RR; apply flat_of_pairs).
  assert (EL : forall eta, LL val eta = flat_map (fun p => linf E val (fst p) eta) ps) by (intros eta; unfold PBasin8.LL; rewrite Efs; apply flat_of_pairs).
  assert (Len : forall p eta, In p ps -> length (resf E val (snd p)) = length (linf E val (fst p) eta)).
  { intros p eta Hin. destruct (HF p Hin) as (_ & -> & _). symmetry. apply (linf_len groups fs z SB); auto. apply (Hp p Hin). }
  split; [|split; [|split]].
  - rewrite <- (LL_len groups fs z SB val e Lv). rewrite EW, EL. apply flat_len. intros p Hin. apply Len; auto.
  - unfold cost_at. rewrite map_map, EW, flat_sumsq. apply vsum_map_ext. intros p Hin. destruct (HF p Hin) as ((-> & _) & _). reflexivity.
  - intros eta Te'. unfold model. rewrite map_map, EW, EL. rewrite flat_add by (intros p Hin; symmetry; apply Len; auto). rewrite flat_sumsq. apply vsum_map_ext. intros p Hin. destruct (HF p Hin) as ((_ & G) & _). apply G. apply (tangent_sized groups fs); auto. apply (Hp p Hin).
  - rewrite EW, EL. rewrite flat_sub by (intros p Hin; apply Len; auto). rewrite Rmult_assoc. replace (length fs) with (length ps) by (rewrite Efs, map_length; auto). apply flat_norm. intros p Hin. apply (HF p Hin).
Qed.

(* relations that only look at the variables mentioned *)
Lemma tangent_men fs' xi : mentioned fs' = mentioned fs -> tangent E fs' xi <-> tangent E fs xi.
Proof. clear SB. intros H. unfold tangent. rewrite H. tauto. Qed.
Lemma moved_men fs' val xi val' : mentioned fs' = mentioned fs -> moved E fs' val xi val' <-> moved E fs val xi val'.
Proof. clear SB. intros H. unfold moved. rewrite H. tauto. Qed.
Lemma inner_men fs' xi eta : mentioned fs' = mentioned fs -> inner fs' xi eta = inner fs xi eta.
Proof. clear SB. intros H. unfold inner. rewrite H. auto. Qed.

Lemma stationary_off fs' W beta val xi nu : legal val -> mentioned fs' = mentioned fs -> length W = total residual_dim fs ->
  (forall eta, tangent E fs eta -> model E fs' val val eta = sumsq (vadd (LL val eta) W)) -> damped_step E fs' beta val val xi -> 0 < beta -> tangent E fs nu ->
  vdot (LL val nu) (vadd (LL val xi) W) + beta * vdot (flatv nu) (flatv xi) = 0.
Proof.
  intros Lv Hme L2 HM (Tx & Hmin) Hb Tn. apply (proj1 (tangent_men fs' xi Hme)) in Tx. pose proof (LL_len groups fs z SB val) as L1.
  set (a := vadd (LL val xi) W). assert (La : length a = total residual_dim fs) by (unfold a; rewrite vadd_length; rewrite L1; auto).
  apply (flat _ (sumsq (LL val nu) + beta * sumsq (flatv nu))).
  - pose proof (sumsq_nonneg (LL val nu)). assert (0 <= beta * sumsq (flatv nu)) by (apply Rmult_le_pos; [lra | apply sumsq_nonneg]). lra.
  - intros t. pose proof (plus_tangent groups fs xi nu t Tx Tn) as Tp. destruct (Hmin (plus xi t nu) (proj2 (tangent_men fs' _ Hme) Tp)) as (H & _). rewrite !(inner_men fs') in H by auto. rewrite !HM in H by auto. rewrite !(inner_flat fs), (flat_plus groups fs) in H by auto.
    rewrite (LL_move groups fs z SB) in H by auto. assert (E1 : vadd (vadd (LL val xi) (vscale t (LL val nu))) W = vadd a (vscale t (LL val nu))).
    { unfold a. apply (nth_ext' _ _ 0); [rewrite !vadd_length; rewrite ?vadd_length; rewrite ?vscale_length, ?L1; auto|]. intros i _.
      rewrite !nth_vadd, nth_vscale by (rewrite ?vadd_length; rewrite ?vscale_length, ?L1; auto). ring. }
    rewrite E1 in H. fold a in H. rewrite !sumsq_add in H by (rewrite vscale_length; rewrite ?L1; auto; apply (flat_length groups fs); auto). rewrite !vdot_scale_r, !sumsq_scale in H. rewrite (vdot_comm (LL val nu)), (vdot_comm (flatv nu)). lra.
Qed.

Lemma noisy_turn : rigid groups fs z -> exists m rho K, 0 < m /\ 0 < rho /\ 0 <= K /\ forall eps fs' beta val e xi val', 0 <= eps <= rho -> noisy groups eps fs fs' -> 0 < beta -> tangent E fs e -> size fs e <= rho -> moved E fs z e val ->
  damped_step E fs' beta val val xi -> moved E fs' val xi val' ->
  exists e', tangent E fs e' /\ moved E fs z e' val' /\ size fs e' <= (beta / (m * m + beta) + K * size fs e) * size fs e + K * eps.
Proof.
  intros HR. destruct (lower groups fs z SB HR) as (m & Hm & Hlow). destruct (graph_near groups fs z SB) as (K & d & HK & Hd & HN). destruct graph_off as (K' & d' & HK' & Hd' & HO).
  destruct (compose_uniform groups (mentioned fs) (kn groups fs z SB)) as (Kc & dc & HKc & Hdc & HC). set (N := INR (length (mentioned fs))). assert (HN0 : 0 <= N) by apply pos_INR.
  assert (Im : 0 < / m) by (apply Rinv_0_lt_compat; auto).
  set (A := (2 * K + 2 * K') / m). set (B := (2 * K + 8 * K') / m). assert (HA : 0 <= A) by (apply Rmult_le_pos; lra). assert (HB : 0 <= B) by (apply Rmult_le_pos; lra).
  set (c3 := 3 + B). set (D := N * (Kc * (c3 * c3))). assert (HD : 0 <= D) by (unfold D; repeat apply Rmult_le_pos; auto; unfold c3; lra).
  assert (P1 : 0 < m / (4 * (K + 1))) by (apply Rdiv_lt_0_compat; lra). assert (P2 : 0 < / (A + 1)) by (apply Rinv_0_lt_compat; lra). assert (P3 : 0 < dc / (2 * c3)) by (apply Rdiv_lt_0_compat; unfold c3; lra).
  set (rho := Rmin (Rmin (Rmin (d / 2) (d' / 2)) (Rmin 1 (m / (4 * (K + 1))))) (Rmin (/ (A + 1)) (dc / (2 * c3)))).
  assert (Hrho : 0 < rho) by (unfold rho; repeat apply Rmin_pos; lra).
  assert (Rho : rho <= d / 2 /\ rho <= d' / 2 /\ rho <= 1 /\ rho <= m / (4 * (K + 1)) /\ rho <= / (A + 1) /\ rho <= dc / (2 * c3)).
  { unfold rho. set (x1 := d / 2). set (x2 := d' / 2). set (x3 := m / (4 * (K + 1))). set (x4 := / (A + 1)). set (x5 := dc / (2 * c3)).
    pose proof (Rmin_l (Rmin (Rmin x1 x2) (Rmin 1 x3)) (Rmin x4 x5)). pose proof (Rmin_r (Rmin (Rmin x1 x2) (Rmin 1 x3)) (Rmin x4 x5)). pose proof (Rmin_l (Rmin x1 x2) (Rmin 1 x3)). pose proof (Rmin_r (Rmin x1 x2) (Rmin 1 x3)).
    pose proof (Rmin_l x1 x2). pose proof (Rmin_r x1 x2). pose proof (Rmin_l 1 x3). pose proof (Rmin_r 1 x3). pose proof (Rmin_l x4 x5). pose proof (Rmin_r x4 x5). lra. }
  destruct Rho as (Q1 & Q2 & Q3 & Q4 & Q5 & Q6). clearbody rho.
  exists m, rho, (A + B + 3 * D). split; auto. split; auto. split; [lra|].
  intros eps fs' beta val e xi val' (Pe & He) Hno Hb Te Hr Hmv Hds Hmv'. set (s := size fs e) in *. pose proof (size_pos fs e) as Ps. fold s in Ps.
  pose proof (noisy_mentioned eps fs' Hno) as Hme. apply (proj1 (moved_men fs' _ _ _ Hme)) in Hmv'.
  set (r := s + eps). assert (Pr : 0 <= r) by (unfold r; lra). assert (R0 : r <= 2 * rho) by (unfold r; lra).
  assert (R1 : r <= d) by lra. assert (R2 : r <= d') by lra.
  assert (R4 : 2 * K * r <= m). { assert (G : (4 * (K + 1)) * rho <= m) by (apply (Rmult_le_compat_l (4 * (K + 1))) in Q4; [|lra]; replace (4 * (K + 1) * (m / (4 * (K + 1)))) with m in Q4 by (field; lra); auto). assert (K * r <= K * (2 * rho)) by (apply Rmult_le_compat_l; auto). lra. }
  assert (R5 : A * s <= 1). { assert (G : (A + 1) * rho <= 1) by (apply (Rmult_le_compat_l (A + 1)) in Q5; [|lra]; rewrite Rinv_r in Q5 by lra; auto). assert (A * s <= A * rho) by (apply Rmult_le_compat_l; auto). lra. }
  assert (R6 : c3 * r <= dc). { assert (Hc3 : 0 < c3) by (unfold c3; lra). assert (G : (2 * c3) * rho <= dc) by (apply (Rmult_le_compat_l (2 * c3)) in Q6; [|lra]; replace (2 * c3 * (dc / (2 * c3))) with dc in Q6 by (field; lra); auto). assert (c3 * r <= c3 * (2 * rho)) by (apply Rmult_le_compat_l; lra). lra. }
  assert (PK : 0 <= K * r) by (apply Rmult_le_pos; auto).
  destruct (HN e val r Te ltac:(fold s; unfold r; lra) R1 Hmv) as (_ & _ & HJ). destruct (HO eps fs' e val r Hno ltac:(unfold r; lra) Te ltac:(fold s; unfold r; lra) R2 Hmv) as (L2 & _ & HM & HW). set (W := RR groups fs' val) in *.
  pose proof (legal_of groups fs z SB e val Hmv) as Lv. pose proof (legal_z groups fs z SB) as Lz. pose proof Hds as (Tx & _). apply (proj1 (tangent_men fs' xi Hme)) in Tx.
  set (u := plus e 1 xi). assert (Tu : tangent E fs u) by (apply (plus_tangent groups fs); auto).
  pose proof (stationary_off fs' W beta val xi u Lv Hme L2 HM Hds Hb Tu) as HS. pose proof (LL_len groups fs z SB val) as L1.
  set (p := LL val u) in *. set (w := vsub W (LL val e)) in *. assert (Lw : length w = total residual_dim fs) by (unfold w; rewrite vsub_length; rewrite ?L1; auto).
  assert (Lp : length p = total residual_dim fs) by (apply L1; auto).
  assert (Ep : vadd (LL val xi) W = vadd p w).
  { unfold p, u, w. rewrite (LL_move groups fs z SB) by auto. rewrite vscale_one. apply (nth_ext' _ _ 0); [rewrite !vadd_length; rewrite ?vadd_length, ?vsub_length; rewrite ?L1; auto|]. intros i _.
    rewrite !nth_vadd, nth_vsub by (rewrite ?vadd_length, ?vsub_length; rewrite ?L1; auto). ring. }
  assert (Ef : flatv xi = vsub (flatv u) (flatv e)).
  { pose proof (flat_length groups fs xi e Tx Te) as Lx. unfold u. rewrite (flat_plus groups fs), vscale_one by auto. apply (nth_ext' _ _ 0); [rewrite vsub_length; rewrite ?vadd_length; congruence|]. intros i _.
    rewrite nth_vsub, nth_vadd by (rewrite ?vadd_length; congruence). ring. }
  rewrite Ep, Ef in HS. pose proof (flat_length groups fs u e Tu Te) as Lue.
  assert (Hlow' : (m - K * r) * vnorm (flatv u) <= vnorm p).
  { pose proof (Hlow u Tu) as B1. pose proof (HJ u Tu) as B2. rewrite (size_flat fs) in B1, B2. pose proof (LL_len groups fs z SB z u Lz) as Lzu. assert (B3 : vnorm (LL z u) <= vnorm (vsub (LL z u) p) + vnorm p) by (apply norm_split; congruence).
    rewrite norm_flip in B3 by congruence. fold p in B2. lra. }
  assert (Er : vnorm (flatv e) = s) by (unfold s; rewrite (size_flat fs); auto).
  pose proof (noisy_core (m - K * r) beta p w (flatv u) (flatv e) ltac:(lra) Hb ltac:(congruence) Lue Hlow' HS) as HU. rewrite Er in HU. pose proof (norm_pos (flatv u)) as Pu. pose proof (norm_pos w) as Pw.
  pose proof (rate_shift m K beta r Hm HK Hb Pr R4) as HQ. set (q := beta / (m * m + beta)) in *.
  assert (Rr : r * r <= s * s + 3 * eps). { unfold r. assert (s * eps <= 1 * eps) by (apply Rmult_le_compat_r; lra). assert (eps * eps <= 1 * eps) by (apply Rmult_le_compat_r; lra). lra. }
  assert (Hw : vnorm w <= K' * (s * s + 4 * eps)) by (eapply Rle_trans; [exact HW|]; apply Rmult_le_compat_l; lra).
  assert (Hwm : vnorm w / (m - K * r) <= 2 * K' / m * (s * s + 4 * eps)).
  { apply Rle_trans with (vnorm w * (2 / m)).
    - apply Rmult_le_compat_l; auto. replace (2 / m) with (/ (m / 2)) by (field; lra). apply Rinv_le_contravar; lra.
    - replace (2 * K' / m * (s * s + 4 * eps)) with (K' * (s * s + 4 * eps) * (2 / m)) by (field; lra). apply Rmult_le_compat_r; auto. apply Rlt_le, Rdiv_lt_0_compat; lra. }
  assert (HU2 : vnorm (flatv u) <= q * s + A * (s * s) + B * eps).
  { assert (G1 : beta / ((m - K * r) * (m - K * r) + beta) * s <= (q + 2 * K / m * r) * s) by (apply Rmult_le_compat_r; auto).
    assert (G2 : 2 * K / m * r * s <= 2 * K / m * (s * s) + 2 * K / m * eps). { unfold r. assert (0 <= 2 * K / m) by (apply Rmult_le_pos; lra). assert (2 * K / m * (eps * s) <= 2 * K / m * (eps * 1)) by (apply Rmult_le_compat_l; auto; apply Rmult_le_compat_l; lra). lra. }
    unfold A, B. replace ((2 * K + 2 * K') / m) with (2 * K / m + 2 * K' / m) by (field; lra). replace ((2 * K + 8 * K') / m) with (2 * K / m + 8 * K' / m) by (field; lra).
    replace (2 * K' / m * (s * s + 4 * eps)) with (2 * K' / m * (s * s) + 8 * K' / m * eps) in Hwm by (field; lra). lra. }
  assert (Hq1 : q <= 1). { unfold q. assert (0 < m * m + beta) by nra. apply (Rmult_le_reg_r (m * m + beta)); auto. replace (beta / (m * m + beta) * (m * m + beta)) with beta by (field; lra). nra. }
  assert (Hq0 : 0 <= q) by (apply Rlt_le, Rdiv_lt_0_compat; nra).
  assert (Hu3 : vnorm (flatv u) <= 2 * s + B * eps). { assert (q * s <= 1 * s) by (apply Rmult_le_compat_r; auto). assert (A * s * s <= 1 * s) by (apply Rmult_le_compat_r; auto). lra. }
  assert (PBe : 0 <= B * eps) by (apply Rmult_le_pos; auto). assert (PBs : 0 <= B * s) by (apply Rmult_le_pos; auto).
  assert (Hx3 : size fs xi <= c3 * r). { rewrite (size_flat fs), Ef. eapply Rle_trans; [apply (norm_mid _ (vzero (length (flatv e)))); rewrite vzero_length; auto|].
    assert (Ez : vsub (flatv u) (vzero (length (flatv e))) = flatv u). { apply (nth_ext' _ _ 0); [rewrite vsub_length; rewrite ?vzero_length; auto|]. intros i _. rewrite nth_vsub, nth_zero by (rewrite vzero_length; auto). ring. }
    assert (Ez2 : vsub (vzero (length (flatv e))) (flatv e) = vneg (flatv e)). { apply (nth_ext' _ _ 0); [rewrite vsub_length, vneg_length; rewrite ?vzero_length; auto|]. intros i _. rewrite nth_vsub, nth_zero, nth_vneg by (rewrite vzero_length; auto). ring. }
    rewrite Ez, Ez2, norm_neg, Er. unfold c3, r. lra. }
  set (e' := fun v => let raw := groups (v_ty v) in lg_log raw (lg_mul raw (lg_exp raw (e v)) (lg_exp raw (xi v)))).
  assert (HE : forall v, In v (mentioned fs) -> length (e' v) = dimv v /\ lie_retract (groups (v_ty v)) (lie_retract (groups (v_ty v)) (params (z v)) (e v)) (xi v) = lie_retract (groups (v_ty v)) (params (z v)) (e' v) /\
    vnorm (vsub (e' v) (u v)) <= Kc * (c3 * c3) * (r * r)).
  { intros v Hv. destruct (HC v Hv (params (z v)) (e v) (xi v) (c3 * r) (Te v Hv) (Tx v Hv)) as (G1 & G2 & G3); auto.
    - eapply Rle_trans; [apply (size_part fs e v Hv)|]. fold s. unfold c3, r. lra.
    - eapply Rle_trans; [apply (size_part fs xi v Hv)|]. auto.
    - split; auto. split; auto. unfold u. rewrite vscale_one. eapply Rle_trans; [exact G3|]. apply Req_le. ring. }
  assert (Te' : tangent E fs e') by (intros v Hv; apply HE; auto). exists e'. split; auto. split.
  - intros v Hv. destruct (HE v Hv) as (_ & G2 & _). specialize (Hmv v Hv). specialize (Hmv' v Hv). cbn in Hmv, Hmv' |- *. injection Hmv as Hmv. injection Hmv' as Hmv'. rewrite <- Hmv in Hmv'. rewrite params_value in Hmv'. rewrite <- Hmv', G2. reflexivity.
  - rewrite (size_flat fs). assert (B1 : vnorm (flatv e') <= vnorm (vsub (flatv e') (flatv u)) + vnorm (flatv u)) by (apply norm_split; apply (flat_length groups fs); auto).
    assert (B2 : vnorm (vsub (flatv e') (flatv u)) <= N * (Kc * (c3 * c3) * (r * r))).
    { unfold PBasin8.flatv. rewrite flat_sub by (intros v Hv; rewrite (Te' v Hv), (Tu v Hv); auto). apply flat_norm. intros v Hv. apply HE; auto. }
    assert (B3 : N * (Kc * (c3 * c3) * (r * r)) <= D * (s * s + 3 * eps)) by (replace (N * (Kc * (c3 * c3) * (r * r))) with (D * (r * r)) by (unfold D; ring); apply Rmult_le_compat_l; auto).
    assert (Z1 : 0 <= B * (s * s)) by (apply Rmult_le_pos; auto; nra). assert (Z2 : 0 <= A * eps) by (apply Rmult_le_pos; auto). assert (Z3 : 0 <= D * (s * s)) by (apply Rmult_le_pos; auto; nra). lra.
Qed.

Lemma noisy_basin : rigid groups fs z -> forall q0, 0 < q0 -> exists q rho K, 0 <= q < 1 /\ 0 < rho /\ 0 <= K /\ forall eps fs' beta val e xi val', 0 <= eps <= rho -> noisy groups eps fs fs' -> 0 < beta <= q0 -> tangent E fs e -> size fs e <= rho -> moved E fs z e val ->
  damped_step E fs' beta val val xi -> moved E fs' val xi val' -> exists e', tangent E fs e' /\ moved E fs z e' val' /\ size fs e' <= q * size fs e + K * eps.
Proof.
  intros HR q0 Hq0. destruct (noisy_turn HR) as (m & rho & K & Hm & Hrho & HK & HT). assert (Hmm : 0 < m * m) by nra. set (h := m * m / (2 * (m * m + q0))). assert (Hh : 0 < h) by (apply Rdiv_lt_0_compat; lra).
  assert (Eh : q0 / (m * m + q0) = 1 - 2 * h) by (unfold h; field; lra). assert (Hq : 0 < q0 / (m * m + q0)) by (apply Rdiv_lt_0_compat; lra).
  exists (1 - h), (Rmin rho (h / (K + 1))), K. assert (Hhk : 0 < h / (K + 1)) by (apply Rdiv_lt_0_compat; lra). split; [lra|]. split; [apply Rmin_pos; auto|]. split; auto.
  intros eps fs' beta val e xi val' He Hno Hb Te Hs Hm1 Hd Hm2. pose proof (Rmin_l rho (h / (K + 1))) as M1. pose proof (Rmin_r rho (h / (K + 1))) as M2. assert (Hs2 : size fs e <= h / (K + 1)) by lra.
  destruct (HT eps fs' beta val e xi val' ltac:(lra) Hno ltac:(lra) Te ltac:(lra) Hm1 Hd Hm2) as (e' & T' & M' & S'). exists e'. split; auto. split; auto. eapply Rle_trans; [exact S'|]. pose proof (size_pos fs e) as P. apply Rplus_le_compat_r. apply Rmult_le_compat_r; auto.
  assert (Hb1 : beta / (m * m + beta) <= q0 / (m * m + q0)).
  { assert (E1 : q0 / (m * m + q0) - beta / (m * m + beta) = m * m * (q0 - beta) / ((m * m + q0) * (m * m + beta))) by (field; lra). assert (0 <= m * m * (q0 - beta) / ((m * m + q0) * (m * m + beta))) by (apply Rmult_le_pos; [apply Rmult_le_pos; lra | apply Rlt_le, Rinv_0_lt_compat, Rmult_lt_0_compat; lra]). lra. }
  assert (Hk1 : (K + 1) * size fs e <= h). { apply (Rmult_le_compat_l (K + 1)) in Hs2; [|lra]. replace ((K + 1) * (h / (K + 1))) with h in Hs2 by (field; lra). auto. }
  lra.
Qed.
(* q and K as in noisy_basin; the errors add up to a geometric sum *)
Lemma noisy_run : rigid groups fs z -> exists q rho K, 0 <= q < 1 /\ 0 < rho /\ 0 <= K /\ forall eps fs' k val e val', 0 <= eps <= rho -> noisy groups eps fs fs' -> tangent E fs e -> size fs e <= rho -> moved E fs z e val ->
  turns (gauss_newton_turn E fs') k val val' -> exists e', tangent E fs e' /\ moved E fs z e' val' /\ size fs e' <= q ^ k * size fs e + K * eps.
Proof.
  intros HR. destruct (noisy_basin HR (1 / 100000) ltac:(lra)) as (q & rho & K & Hq & Hrho & HK & HT). assert (Hh : 0 < 1 - q) by lra. set (K1 := K / (1 - q)). assert (HK1 : 0 <= K1) by (apply Rmult_le_pos; auto; apply Rlt_le, Rinv_0_lt_compat; auto).
  assert (EK : K1 * (1 - q) = K) by (unfold K1; field; lra). assert (P1 : 0 < rho * (1 - q) / (K + 1)) by (apply Rdiv_lt_0_compat; nra).
  exists q, (Rmin rho (rho * (1 - q) / (K + 1))), K1. split; auto. split; [apply Rmin_pos; auto|]. split; auto.
  intros eps fs' k val e val' He Hno Te Hs Hm Ht. pose proof (Rmin_l rho (rho * (1 - q) / (K + 1))) as M1. pose proof (Rmin_r rho (rho * (1 - q) / (K + 1))) as M2.
  assert (Hs' : size fs e <= rho) by lra. clear Hs. assert (Hke : K * eps <= rho * (1 - q)).
  { assert (G : eps <= rho * (1 - q) / (K + 1)) by lra. apply (Rmult_le_compat_l (K + 1)) in G; [|lra]. replace ((K + 1) * (rho * (1 - q) / (K + 1))) with (rho * (1 - q)) in G by (field; lra). lra. }
  assert (G : exists e', tangent E fs e' /\ moved E fs z e' val' /\ size fs e' <= q ^ k * size fs e + K1 * (1 - q ^ k) * eps).
  { revert e Te Hs' Hm. induction Ht as [x|k x y w (xi & Hd & Hmv) Ht IH]; intros e Te Hs Hm; [exists e; split; auto; split; auto; cbn [pow]; lra|].
    destruct (HT eps fs' (1 / 100000) x e xi y ltac:(lra) Hno ltac:(lra) Te Hs Hm Hd Hmv) as (e1 & T1 & N1 & S1). pose proof (size_pos fs e) as P.
    assert (S2 : size fs e1 <= rho) by (eapply Rle_trans; [exact S1|]; assert (q * size fs e <= q * rho) by (apply Rmult_le_compat_l; lra); lra).
    destruct (IH e1 T1 S2 N1) as (e' & T' & N' & S'). exists e'. split; auto. split; auto. eapply Rle_trans; [exact S'|]. cbn [pow].
    assert (Pk : 0 <= q ^ k) by (apply pow_le; lra). assert (q ^ k * size fs e1 <= q ^ k * (q * size fs e + K * eps)) by (apply Rmult_le_compat_l; auto). rewrite <- EK in H. 
    replace (q * q ^ k * size fs e + K1 * (1 - q * q ^ k) * eps) with (q ^ k * (q * size fs e + K1 * (1 - q) * eps) + K1 * (1 - q ^ k) * eps) by ring. lra. }
  destruct G as (e' & T' & N' & S'). exists e'. split; auto. split; auto. eapply Rle_trans; [exact S'|]. apply Rplus_le_compat_l. apply Rmult_le_compat_r; [lra|].
  assert (Pk : 0 <= q ^ k) by (apply pow_le; lra). assert (0 <= K1 * q ^ k) by (apply Rmult_le_pos; auto). lra.
Qed.
End Graph.
