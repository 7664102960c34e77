(* Proofs: the Gauss-Newton iterations converge near poses at which all measurements hold. *)
From Coq Require Import List Arith Bool Lia Reals Lra Psatz.
From Verif Require Import Num NumR Py Arr MLayout MAssign MNoise MSparse MFactor MGraph MLie MPose SpecLayout SpecTree SpecAssign SpecNoise SpecGraph SpecLie SpecPose SpecZero SpecSpatial SpecTwin SpecInv SpecOrder SpecBook SpecNear SpecBasin PGraph PVec PLie PPose PFrame PSolverR PNoise PDescent PLocal PLin PLinDl POrder PTwin2 PFree PZero PJacZero PNear PSpatial PSpatial2 PSpatial3 PSpatial4 PBook PBasin4 PBasin5 PBasin6 PBasin7 PBasin8.
Import ListNotations.
Local Open Scope R_scope.

Lemma pushed_agree rd vs Js (xi eta : var -> list R) : (forall v, In v vs -> xi v = eta v) -> pushed rd vs Js xi = pushed rd vs Js eta.
Proof.
  intros H. unfold pushed. f_equal. revert Js. induction vs as [|v l IH]; intros [|J Js]; cbn [zipw]; auto. f_equal; [rewrite H; [auto | left; auto] | apply IH; intros; apply H; right; auto].
Qed.

Lemma vsum_zeros {X} (l : list X) : vsum (map (fun _ => 0) l) = 0.
Proof. induction l as [|v l IH]; [reflexivity|]. cbn [map]. rewrite vsum_cons, IH. lra. Qed.

Section Graph.
Variable groups : vty -> lie_ops R (list R).
Variable fs : list (factor R).
Variable z : var -> pytree R.
Hypothesis SB : solved_by groups fs z.
Let E := pose_env groups.
Notation dimv v := (lg_dim (groups (v_ty v))).
Notation field := (var -> list R).
Notation LL := (LL groups fs).
Notation RR := (RR groups fs).
Notation flatv := (flatv fs).

Lemma LL_agree val xi eta : agree fs xi eta -> LL val xi = LL val eta.
Proof. intros H. unfold PBasin8.LL. apply flat_ext. intros f Hf. unfold linf. f_equal. apply pushed_agree. intros v Hv. apply H. apply mentioned_in. eauto. Qed.
Lemma size_agree xi eta : agree fs xi eta -> size fs xi = size fs eta.
Proof. intros H. unfold size. f_equal. apply inner_ext; auto. Qed.

(* ---- rigid graphs ---- *)
Lemma lower : rigid groups fs z -> exists m, 0 < m /\ forall eta, tangent E fs eta -> m * size fs eta <= vnorm (LL z eta).
Proof.
  intros HR. set (C := e_cls E). set (L := graph_layout E fs true). set (n := l_dim L). set (F := fun x => LL z (block C L x)).
  assert (HF : linmap (total residual_dim fs) n F).
  { split; [intros x Hx; apply (LL_len groups fs z SB); apply (legal_z groups fs z SB)|]. intros x y t Hx Hy. unfold F. rewrite <- (LL_move groups fs z SB) by (try apply (legal_z groups fs z SB); apply block_tangent; auto).
    apply LL_agree. intros v _. unfold vadd, vscale. rewrite block_zipw, block_map. reflexivity. }
  destruct (inj_bound _ n F HF) as ((c & Hc & Hlow) & _).
  { intros x Hx H0. assert (HU : unseen_at E fs z (block C L x)).
    { split; [apply block_tangent; auto|]. intros f Hf. destruct (sb_factors _ _ _ SB f Hf) as (Pf & Inf & _). pose proof (flat_zero _ _ _ H0 f Hf) as Hz. cbv beta in Hz.
      rewrite (linf_len groups fs z SB) in Hz by (auto; apply (legal_z groups fs z SB)). unfold linf in Hz. apply wl_injective in Hz; auto; [apply (pose_factor_ok groups f Pf)|].
      apply (push_len groups f Pf); [intros v Hv; apply (kn groups fs z SB), mentioned_in; eauto | apply legal1 with (fs := fs); auto; apply (legal_z groups fs z SB)]. }
    pose proof (HR _ HU) as Hb. assert (Hs : size fs (block C L x) = 0).
    { rewrite (size_flat fs). apply vnorm_eq; [lra|]. unfold PBasin8.flatv. rewrite flat_sumsq. rewrite (vsum_map_ext _ (fun _ => 0)) by (intros v Hv; rewrite Hb by auto; apply zero_sumsq). rewrite vsum_zeros. ring. }
    pose proof (extent_block E fs x Hx) as Hs'. fold C L in Hs'. rewrite Hs' in Hs. destruct (vnorm_sq x) as (_ & H1). rewrite Hs in H1. assert (H2 : sumsq x = 0) by lra. apply (proj1 (PVec.sumsq_zero _)) in H2. rewrite Hx in H2. exact H2. }
  exists (sqrt c). split; [apply sqrt_lt_R0; auto|]. intros eta Ht. destruct (field_vec E fs eta Ht) as (x & Hx & Hag). rewrite <- (size_agree _ _ Hag), <- (LL_agree z _ _ Hag). rewrite extent_block by auto.
  specialize (Hlow x Hx). unfold F in Hlow. destruct (vnorm_sq x) as (X0 & X1). destruct (vnorm_sq (LL z (block C L x))) as (Y0 & Y1). unfold C, L in *. rewrite <- X1, <- Y1 in Hlow.
  pose proof (sqrt_pos c) as S0. pose proof (sqrt_sqrt c ltac:(lra)) as S1. apply Rsqr_incr_0_var; auto. unfold Rsqr. rewrite <- S1 in Hlow. lra.
Qed.

Lemma compose_uniform l : (forall v, In v l -> PZero.known (groups (v_ty v))) -> exists K d, 0 <= K /\ 0 < d /\ forall v, In v l -> let raw := groups (v_ty v) in
  forall p e xi r, length e = lg_dim raw -> length xi = lg_dim raw -> vnorm e <= r -> vnorm xi <= r -> r <= d ->
  let e' := lg_log raw (lg_mul raw (lg_exp raw e) (lg_exp raw xi)) in length e' = lg_dim raw /\ lie_retract raw (lie_retract raw p e) xi = lie_retract raw p e' /\ vnorm (vsub e' (vadd e xi)) <= K * (r * r).
Proof.
  induction l as [|v l IH]; intros Hl; [exists 0, 1; split; [lra|]; split; [lra|]; intros v []|].
  destruct IH as (K1 & d1 & HK1 & Hd1 & H1); [intros u Hu; apply Hl; right; auto|]. destruct (compose_near _ (Hl v (or_introl eq_refl))) as (K2 & d2 & HK2 & Hd2 & H2).
  assert (M1 : K1 <= Rmax K1 K2) by apply Rmax_l. assert (M2 : K2 <= Rmax K1 K2) by apply Rmax_r. exists (Rmax K1 K2), (Rmin d1 d2). split; [lra|]. split; [apply Rmin_pos; auto|].
  intros u [<-|Hu] raw p e xi r Le Lx He Hx Hr e'.
  - destruct (H2 p e xi r Le Lx He Hx ltac:(eapply Rle_trans; [exact Hr | apply Rmin_r])) as (G1 & G2 & G3). split; auto. split; auto. eapply Rle_trans; [exact G3|]. apply Rmult_le_compat_r; auto. nra.
  - destruct (H1 u Hu p e xi r Le Lx He Hx ltac:(eapply Rle_trans; [exact Hr | apply Rmin_l])) as (G1 & G2 & G3). split; auto. split; auto. eapply Rle_trans; [exact G3|]. apply Rmult_le_compat_r; auto. nra.
Qed.

(* ---- the step ---- *)
Notation plus xi t nu := (fun v => vadd (xi v) (vscale t (nu v))).
Lemma plus_tangent xi nu t : tangent E fs xi -> tangent E fs nu -> tangent E fs (plus xi t nu).
Proof. intros H H' v Hv. rewrite vadd_length; [apply H; auto|]. rewrite vscale_length, (H v Hv), (H' v Hv). auto. Qed.
Lemma flat_plus xi nu t : tangent E fs xi -> tangent E fs nu -> flatv (plus xi t nu) = vadd (flatv xi) (vscale t (flatv nu)).
Proof. intros H H'. unfold PBasin8.flatv. rewrite flat_scale, flat_add; auto. intros v Hv. rewrite vscale_length, (H v Hv), (H' v Hv). auto. Qed.
Lemma flat_length xi nu : tangent E fs xi -> tangent E fs nu -> length (flatv xi) = length (flatv nu).
Proof. intros H H'. apply flat_len. intros v Hv. rewrite (H v Hv), (H' v Hv). auto. Qed.
Lemma inner_flat xi : inner fs xi xi = sumsq (flatv xi).
Proof. unfold inner, PBasin8.flatv. rewrite flat_sumsq. f_equal. apply map_ext. intros v. symmetry. apply sumsq_dot. Qed.

Lemma stationary beta val xi nu : (forall v, In v (mentioned fs) -> value_ok (e_cls E (v_ty v)) (val v)) ->
  (forall eta, tangent E fs eta -> model E fs val val eta = sumsq (vadd (LL val eta) (RR val))) -> damped_step E fs beta val val xi -> 0 < beta -> tangent E fs nu ->
  vdot (LL val nu) (vadd (LL val xi) (RR val)) + beta * vdot (flatv nu) (flatv xi) = 0.
Proof.
  intros Lv HM (Tx & Hmin) Hb Tn. pose proof (LL_len groups fs z SB val) as L1. pose proof (RR_len groups fs z SB val Lv) as L2.
  set (a := vadd (LL val xi) (RR val)). assert (La : length a = total residual_dim fs) by (unfold a; rewrite vadd_length; rewrite L1; auto).
  apply (flat _ (sumsq (LL val nu) + beta * sumsq (flatv nu))).
  - pose proof (sumsq_nonneg (LL val nu)). assert (0 <= beta * sumsq (flatv nu)) by (apply Rmult_le_pos; [lra | apply sumsq_nonneg]). lra.
  - intros t. destruct (Hmin (plus xi t nu) (plus_tangent xi nu t Tx Tn)) as (H & _). rewrite !HM in H by (auto; apply plus_tangent; auto). rewrite !inner_flat, flat_plus in H by auto.
    rewrite (LL_move groups fs z SB) in H by auto. assert (E1 : vadd (vadd (LL val xi) (vscale t (LL val nu))) (RR val) = vadd a (vscale t (LL val nu))).
    { unfold a. apply (nth_ext' _ _ 0); [rewrite !vadd_length; rewrite ?vadd_length; rewrite ?vscale_length, ?L1; auto|]. intros i _.
      rewrite !nth_vadd, nth_vscale by (rewrite ?vadd_length; rewrite ?vscale_length, ?L1; auto). ring. }
    rewrite E1 in H. fold a in H. rewrite !sumsq_add in H by (rewrite vscale_length; rewrite ?L1; auto; apply flat_length; auto). rewrite !vdot_scale_r, !sumsq_scale in H. rewrite (vdot_comm (LL val nu)), (vdot_comm (flatv nu)). lra.
Qed.

Lemma turn_full : rigid groups fs z -> exists m rho K, 0 < m /\ 0 < rho /\ 0 <= K /\ forall beta val e xi val', 0 < beta -> tangent E fs e -> size fs e <= rho -> moved E fs z e val ->
  damped_step E fs beta val val xi -> moved E fs val xi val' ->
  exists e', tangent E fs e' /\ moved E fs z e' val' /\ size fs e' <= (beta / (m * m + beta) + K * size fs e) * size fs e /\
    size fs xi <= 3 * size fs e /\ vnorm (vsub (flatv e') (flatv (plus e 1 xi))) <= K * (size fs e * size fs e).
Proof.
  intros HR. destruct (lower HR) as (m & Hm & Hlow). destruct (graph_near groups fs z SB) as (K & d & HK & Hd & HN).
  destruct (compose_uniform (mentioned fs) (kn groups fs z SB)) as (Kc & dc & HKc & Hdc & HC). set (N := INR (length (mentioned fs))). assert (HN0 : 0 <= N) by apply pos_INR.
  exists m, (Rmin d (Rmin (m / (12 * K + 1)) (dc / 3))), (12 * K / m + 9 * N * Kc). split; auto.
  assert (Hq : 0 < m / (12 * K + 1)) by (apply Rdiv_lt_0_compat; lra). split; [repeat apply Rmin_pos; auto; lra|].
  assert (Hcc : 0 <= 12 * K / m) by (apply Rmult_le_pos; [lra | apply Rlt_le, Rinv_0_lt_compat; auto]). split; [assert (0 <= 9 * N * Kc) by (repeat apply Rmult_le_pos; lra); lra|].
  intros beta val e xi val' Hb Te Hr Hmv Hds Hmv'. set (r := size fs e) in *. pose proof (size_pos fs e) as Pr. fold r in Pr.
  assert (R1 : r <= d) by (eapply Rle_trans; [exact Hr | apply Rmin_l]). assert (R2 : r <= m / (12 * K + 1)) by (eapply Rle_trans; [exact Hr|]; eapply Rle_trans; [apply Rmin_r | apply Rmin_l]).
  assert (R3 : 3 * r <= dc) by (assert (r <= dc / 3) by (eapply Rle_trans; [exact Hr|]; eapply Rle_trans; [apply Rmin_r | apply Rmin_r]); lra).
  assert (R4 : 12 * (K * r) <= m). { apply (Rmult_le_compat_r (12 * K + 1)) in R2; [|lra]. replace (m / (12 * K + 1) * (12 * K + 1)) with m in R2 by (field; lra). lra. }
  assert (PK : 0 <= K * r) by (apply Rmult_le_pos; auto).
  destruct (HN e val r Te (Rle_refl _) R1 Hmv) as ((_ & HM) & HW & HJ). pose proof (legal_of groups fs z SB e val Hmv) as Lv. pose proof (legal_z groups fs z SB) as Lz. pose proof Hds as (Tx & _).
  set (u := plus e 1 xi). assert (Tu : tangent E fs u) by (apply plus_tangent; auto).
  pose proof (stationary beta val xi u Lv HM Hds Hb Tu) as HS. pose proof (LL_len groups fs z SB val) as L1. pose proof (RR_len groups fs z SB val Lv) as L2.
  set (p := LL val u) in *. set (w := vsub (RR val) (LL val e)) in *. assert (Lw : length w = total residual_dim fs) by (unfold w; rewrite vsub_length; rewrite ?L1; auto).
  assert (Lp : length p = total residual_dim fs) by (apply L1; auto).
  assert (Ep : vadd (LL val xi) (RR val) = vadd p w).
  { unfold p, u, w. rewrite (LL_move groups fs z SB) by auto. rewrite vscale_one. apply (nth_ext' _ _ 0); [rewrite !vadd_length; rewrite ?vadd_length, ?vsub_length; rewrite ?L1; auto|]. intros i _.
    rewrite !nth_vadd, nth_vsub by (rewrite ?vadd_length, ?vsub_length; rewrite ?L1; auto). ring. }
  assert (Ef : flatv xi = vsub (flatv u) (flatv e)).
  { pose proof (flat_length xi e Tx Te) as Lx. unfold u. rewrite flat_plus, vscale_one by auto. apply (nth_ext' _ _ 0); [rewrite vsub_length; rewrite ?vadd_length; congruence|]. intros i _.
    rewrite nth_vsub, nth_vadd by (rewrite ?vadd_length; congruence). ring. }
  rewrite Ep, Ef in HS. pose proof (flat_length u e Tu Te) as Lue.
  assert (Hlow' : (m - K * r) * vnorm (flatv u) <= vnorm p).
  { pose proof (Hlow u Tu) as B1. pose proof (HJ u Tu) as B2. rewrite (size_flat fs) in B1, B2. pose proof (LL_len groups fs z SB z u Lz) as Lzu. assert (B3 : vnorm (LL z u) <= vnorm (vsub (LL z u) p) + vnorm p) by (apply norm_split; congruence).
    rewrite norm_flip in B3 by congruence. fold p in B2. lra. }
  assert (Er : vnorm (flatv e) = r) by (unfold r; rewrite (size_flat fs); auto).
  assert (Hw2 : vnorm w <= 2 * (m - K * r) * vnorm (flatv e)). { rewrite Er. eapply Rle_trans; [exact HW|]. replace (K * (r * r)) with (K * r * r) by ring. apply Rmult_le_compat_r; auto. lra. }
  pose proof (damped_core (m - K * r) beta p w (flatv u) (flatv e) ltac:(lra) Hb ltac:(congruence) Lue Hlow' Hw2 HS) as HD. rewrite Er in HD. pose proof (norm_pos (flatv u)) as Pu.
  assert (HD' : ((m - K * r) * (m - K * r) + beta) * vnorm (flatv u) <= beta * r + (m - K * r) * (K * (r * r))).
  { eapply Rle_trans; [exact HD|]. apply Rplus_le_compat_l. apply Rmult_le_compat_l; [lra | auto]. }
  pose proof (shrink_bound m K beta r (vnorm (flatv u)) Hm HK Hb Pr ltac:(lra) HD' Pu) as HU.
  assert (Hq1 : beta / (m * m + beta) <= 1). { assert (0 < m * m + beta) by nra. apply (Rmult_le_reg_r (m * m + beta)); auto. replace (beta / (m * m + beta) * (m * m + beta)) with beta by (field; lra). nra. }
  assert (Hq2 : 12 * K / m * r <= 1). { apply (Rmult_le_reg_r m); auto. replace (12 * K / m * r * m) with (12 * (K * r)) by (field; lra). lra. }
  assert (Hu2 : vnorm (flatv u) <= 2 * r). { eapply Rle_trans; [exact HU|]. apply Rmult_le_compat_r; auto. lra. }
  assert (Hx3 : size fs xi <= 3 * r). { rewrite (size_flat fs), Ef. eapply Rle_trans; [apply (norm_mid _ (vzero (length (flatv e)))); rewrite vzero_length; auto|].
    assert (Ez : vsub (flatv u) (vzero (length (flatv e))) = flatv u). { apply (nth_ext' _ _ 0); [rewrite vsub_length; rewrite ?vzero_length; auto|]. intros i _. rewrite nth_vsub, nth_zero by (rewrite vzero_length; auto). ring. }
    assert (Ez2 : vsub (vzero (length (flatv e))) (flatv e) = vneg (flatv e)). { apply (nth_ext' _ _ 0); [rewrite vsub_length, vneg_length; rewrite ?vzero_length; auto|]. intros i _. rewrite nth_vsub, nth_zero, nth_vneg by (rewrite vzero_length; auto). ring. }
    rewrite Ez, Ez2, norm_neg, Er. lra. }
  (* the displacement after the step *)
  set (e' := fun v => let raw := groups (v_ty v) in lg_log raw (lg_mul raw (lg_exp raw (e v)) (lg_exp raw (xi v)))).
  assert (HE : forall v, In v (mentioned fs) -> length (e' v) = dimv v /\ lie_retract (groups (v_ty v)) (lie_retract (groups (v_ty v)) (params (z v)) (e v)) (xi v) = lie_retract (groups (v_ty v)) (params (z v)) (e' v) /\
    vnorm (vsub (e' v) (u v)) <= 9 * Kc * (r * r)).
  { intros v Hv. destruct (HC v Hv (params (z v)) (e v) (xi v) (3 * r) (Te v Hv) (Tx v Hv)) as (G1 & G2 & G3); auto.
    - eapply Rle_trans; [apply (size_part fs e v Hv)|]. fold r. lra.
    - eapply Rle_trans; [apply (size_part fs xi v Hv)|]. auto.
    - split; auto. split; auto. unfold u. rewrite vscale_one. eapply Rle_trans; [exact G3|]. lra. }
  assert (Te' : tangent E fs e') by (intros v Hv; apply HE; auto). exists e'. split; auto. split.
  - intros v Hv. destruct (HE v Hv) as (_ & G2 & _). specialize (Hmv v Hv). specialize (Hmv' v Hv). cbn in Hmv, Hmv' |- *. injection Hmv as Hmv. injection Hmv' as Hmv'. rewrite <- Hmv in Hmv'. rewrite params_value in Hmv'. rewrite <- Hmv', G2. reflexivity.
  - rewrite (size_flat fs). assert (B1 : vnorm (flatv e') <= vnorm (vsub (flatv e') (flatv u)) + vnorm (flatv u)) by (apply norm_split; apply flat_length; auto).
    assert (B2 : vnorm (vsub (flatv e') (flatv u)) <= N * (9 * Kc * (r * r))).
    { unfold PBasin8.flatv. rewrite flat_sub by (intros v Hv; rewrite (Te' v Hv), (Tu v Hv); auto). apply flat_norm. intros v Hv. apply HE; auto. }
    assert (B3 : 0 <= 12 * K / m * (r * r)) by (apply Rmult_le_pos; auto; nra). split; [lra|]. split; auto. fold r u. lra.
Qed.
Lemma turn : rigid groups fs z -> exists m rho K, 0 < m /\ 0 < rho /\ 0 <= K /\ forall beta val e xi val', 0 < beta -> tangent E fs e -> size fs e <= rho -> moved E fs z e val ->
  damped_step E fs beta val val xi -> moved E fs val xi val' ->
  exists e', tangent E fs e' /\ moved E fs z e' val' /\ size fs e' <= (beta / (m * m + beta) + K * size fs e) * size fs e.
Proof.
  intros HR. destruct (turn_full HR) as (m & rho & K & Hm & Hrho & HK & HT). exists m, rho, K. do 3 (split; auto). intros beta val e xi val' Hb Te Hr Hmv Hds Hmv'.
  destruct (HT beta val e xi val' Hb Te Hr Hmv Hds Hmv') as (e' & H1 & H2 & H3 & _). eauto.
Qed.
End Graph.
