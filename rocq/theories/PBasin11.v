(* Proofs: near poses at which all measurements hold, the linearised cost predicts the cost. *)
From Coq Require Import List Arith Bool Lia Reals Lra Psatz.
From Verif Require Import Num NumR Py Arr MLayout MAssign MNoise MSparse MFactor MGraph MLie MPose SpecLayout SpecTree SpecAssign SpecNoise SpecGraph SpecLie SpecPose SpecZero SpecSpatial SpecTwin SpecInv SpecOrder SpecBook SpecNear SpecBasin PGraph PVec PLie PPose PFrame PSolverR PNoise PDescent PLocal PLin PLinDl POrder PTwin2 PFree PZero PJacZero PNear PSpatial PSpatial2 PSpatial3 PSpatial4 PBook PBasin4 PBasin5 PBasin6 PBasin7 PBasin8 PBasin9 PBasin10.
Import ListNotations.
Local Open Scope R_scope.

Lemma sumsq_close (a b : list R) d s : length a = length b -> vnorm (vsub a b) <= d -> vnorm b <= s -> Rabs (sumsq a - sumsq b) <= d * (2 * s + d).
Proof.
  intros L Hd Hs. set (c := vsub a b) in *. assert (Lc : length c = length b) by (unfold c; rewrite vsub_length; auto).
  assert (Ea : a = vadd b c). { apply (nth_ext' _ _ 0); [rewrite vadd_length; auto|]. intros i _. rewrite nth_vadd by auto. unfold c. rewrite nth_vsub by auto. ring. }
  replace (sumsq a) with (sumsq (vadd b c)) by (rewrite <- Ea; auto). rewrite sumsq_add by auto. destruct (vnorm_sq b) as (B0 & B1). destruct (vnorm_sq c) as (C0 & C1). pose proof (dot_le_norms b c (eq_sym Lc)) as D1. pose proof (dot_le_norms b (vneg c) ltac:(rewrite vneg_length; congruence)) as D2. rewrite vdot_neg_r, norm_neg in D2.
  assert (P1 : vnorm b * vnorm c <= s * d) by (apply Rmult_le_compat; auto). assert (P2 : vnorm c * vnorm c <= d * d) by (apply Rmult_le_compat; auto). assert (P3 : 0 <= vnorm c * vnorm c) by (apply Rmult_le_pos; auto). assert (P4 : 0 <= d * d) by nra. rewrite <- C1. apply Rabs_le. split; lra.
Qed.
Lemma min4 a b c d : 0 < a -> 0 < b -> 0 < c -> 0 < d -> exists m, 0 < m /\ m <= a /\ m <= b /\ m <= c /\ m <= d.
Proof.
  intros. exists (Rmin (Rmin a b) (Rmin c d)). split; [repeat apply Rmin_pos; auto|].
  pose proof (Rmin_l (Rmin a b) (Rmin c d)). pose proof (Rmin_r (Rmin a b) (Rmin c d)). pose proof (Rmin_l a b). pose proof (Rmin_r a b). pose proof (Rmin_l c d). pose proof (Rmin_r c d). lra.
Qed.
Lemma small_mul h K r : 0 < h -> 0 <= K -> r <= h / (K + 1) -> 0 <= r -> K * r <= h.
Proof. intros Hh HK Hr P. apply (Rmult_le_compat_l (K + 1)) in Hr; [|lra]. replace ((K + 1) * (h / (K + 1))) with h in Hr by (field; lra). lra. Qed.

Lemma regroup n (a b c d e : list R) : length a = n -> length b = n -> length c = n -> length d = n -> length e = n ->
  vsub (vadd a b) (vadd c d) = vadd (vadd (vsub a d) (vsub b e)) (vsub e c).
Proof.
  revert a b c d e. induction n as [|n IH]; intros [|a0 a] [|b0 b] [|c0 c] [|d0 d] [|e0 e]; intros; try discriminate; [reflexivity|].
  cbn in *. unfold vadd, vsub in *. cbn. f_equal; [rn; ring|]. apply IH; lia.
Qed.

Section Graph.
Variable groups : vty -> lie_ops R (list R).
Variable fs : list (factor R).
Variable z : var -> pytree R.
Hypothesis SB : solved_by groups fs z.
Let E := pose_env groups.
Notation field := (var -> list R).
Notation LL := (LL groups fs).
Notation RR := (RR groups fs).
Notation flatv := (flatv fs).
Notation plus xi t nu := (fun v => vadd (xi v) (vscale t (nu v))).
Notation legal val := (forall v, In v (mentioned fs) -> value_ok (e_cls E (v_ty v)) (val v)).
Definition still : field := fun v => vzero (lg_dim (groups (v_ty v))).

Lemma still_tangent : tangent E fs still.
Proof. intros v Hv. unfold still. rewrite vzero_length. reflexivity. Qed.
Lemma LL_still val : legal val -> LL val still = vzero (total residual_dim fs).
Proof.
  intros Lv. pose proof (LL_move groups fs z SB val still still 1 Lv still_tangent still_tangent) as H. rewrite (LL_agree groups fs val (plus still 1 still) still) in H.
  - pose proof (LL_len groups fs z SB val still Lv) as L. apply (nth_ext' _ _ 0); [rewrite vzero_length; auto|]. intros i _. rewrite nth_zero. assert (Hi : nth i (LL val still) 0 = nth i (vadd (LL val still) (vscale 1 (LL val still))) 0) by (rewrite <- H; auto).
    rewrite nth_vadd, nth_vscale in Hi by (rewrite vscale_length; auto). lra.
  - intros v Hv. unfold still. rewrite vscale_one. apply add_zero_r. apply vzero_length.
Qed.
Lemma LL_bounded : exists M, 0 <= M /\ forall eta, tangent E fs eta -> vnorm (LL z eta) <= M * size fs eta.
Proof.
  set (C := e_cls E). set (L := graph_layout E fs true). set (n := l_dim L). set (F := fun x => LL z (block C L x)).
  assert (HF : linmap (total residual_dim fs) n F).
  { split; [intros x Hx; apply (LL_len groups fs z SB); apply (legal_z groups fs z SB)|]. intros x y t Hx Hy. unfold F. rewrite <- (LL_move groups fs z SB) by (try apply (legal_z groups fs z SB); apply block_tangent; auto).
    apply LL_agree. intros v _. unfold vadd, vscale. rewrite block_zipw, block_map. reflexivity. }
  destruct (lin_bounded _ n F HF) as (c & Hc & Hb). exists c. split; auto. intros eta Ht. destruct (field_vec E fs eta Ht) as (x & Hx & Hag). rewrite <- (size_agree fs _ _ Hag), <- (LL_agree groups fs z _ _ Hag). rewrite extent_block by auto. apply Hb; auto.
Qed.
Lemma LL_diff val xi eta : legal val -> tangent E fs xi -> tangent E fs eta -> LL val (plus xi (-1) eta) = vsub (LL val xi) (LL val eta).
Proof.
  intros Lv Hx He. rewrite (LL_move groups fs z SB) by auto. pose proof (LL_len groups fs z SB val xi Lv) as L1. pose proof (LL_len groups fs z SB val eta Lv) as L2.
  apply (nth_ext' _ _ 0); [rewrite vadd_length, vsub_length; rewrite ?vscale_length; congruence|]. intros i _. rewrite nth_vsub, nth_vadd, nth_vscale by (rewrite ?vscale_length; congruence). ring.
Qed.
Lemma size_diff xi eta : tangent E fs xi -> tangent E fs eta -> size fs (plus xi (-1) eta) = vnorm (vsub (flatv xi) (flatv eta)).
Proof.
  intros Hx He. rewrite (size_flat fs), (flat_plus groups fs xi eta) by auto. f_equal. pose proof (flat_length groups fs xi eta Hx He) as L.
  apply (nth_ext' _ _ 0); [rewrite vadd_length, vsub_length; rewrite ?vscale_length; congruence|]. intros i _. rewrite nth_vsub, nth_vadd, nth_vscale by (rewrite ?vscale_length; congruence). ring.
Qed.

(* the four vectors: residuals after the step, predicted residuals, and their linear parts *)
Lemma predict_core K M K1 e xi e' val val' r d : 0 <= K -> 0 <= M -> 0 <= K1 -> 0 <= r -> r <= 1 -> 2 * r <= d ->
  (forall e val r, tangent E fs e -> size fs e <= r -> r <= d -> moved E fs z e val ->
    (cost_at E fs val = sumsq (RR val) /\ forall eta, tangent E fs eta -> model E fs val val eta = sumsq (vadd (LL val eta) (RR val))) /\
    vnorm (vsub (RR val) (LL val e)) <= K * (r * r) /\ (forall eta, tangent E fs eta -> vnorm (vsub (LL val eta) (LL z eta)) <= K * r * size fs eta)) ->
  (forall eta, tangent E fs eta -> vnorm (LL z eta) <= M * size fs eta) ->
  tangent E fs e -> tangent E fs xi -> tangent E fs e' -> moved E fs z e val -> moved E fs z e' val' -> size fs e <= r -> size fs xi <= 3 * r -> size fs e' <= 2 * r ->
  vnorm (vsub (flatv e') (flatv (plus e 1 xi))) <= K1 * (r * r) ->
  Rabs (cost_at E fs val' - model E fs val val xi) <= (13 * K + M * K1) * (2 * (4 * M + 5 * K) + (13 * K + M * K1)) * (r * r * r).
Proof.
  intros HK HM HK1 Pr Hr1 Hd HN HB Te Tx Te' Hv Hv' Se Sx Se' Hc. set (u := plus e 1 xi) in *. assert (Tu : tangent E fs u) by (apply plus_tangent; auto).
  destruct (HN e val r Te Se ltac:(lra) Hv) as ((_ & HMod) & HW & HJ). destruct (HN e' val' (2 * r) Te' Se' Hd Hv') as ((HC' & _) & HW' & HJ').
  pose proof (legal_of groups fs z SB e val Hv) as Lv. pose proof (legal_of groups fs z SB e' val' Hv') as Lv'. pose proof (legal_z groups fs z SB) as Lz.
  pose proof (fun eta => LL_len groups fs z SB val eta Lv) as L1. pose proof (fun eta => LL_len groups fs z SB val' eta Lv') as L2. pose proof (fun eta => LL_len groups fs z SB z eta Lz) as L3. pose proof (RR_len groups fs z SB val Lv) as L4. pose proof (RR_len groups fs z SB val' Lv') as L5.
  rewrite HC', (HMod xi Tx). set (a := RR val') in *. set (b := vadd (LL val xi) (RR val)). assert (Lb : length b = total residual_dim fs) by (unfold b; rewrite vadd_length; rewrite L1; auto).
  assert (Pk : 0 <= K * r) by (apply Rmult_le_pos; auto). pose proof (size_pos fs e) as P1. pose proof (size_pos fs xi) as P2. pose proof (size_pos fs e') as P3.
  assert (A1 : vnorm (vsub a (LL z e')) <= 8 * K * (r * r)).
  { eapply Rle_trans; [apply (norm_mid _ (LL val' e')); rewrite ?L2, ?L3; auto|]. specialize (HJ' e' Te'). assert (K * (2 * r) * size fs e' <= K * (2 * r) * (2 * r)) by (apply Rmult_le_compat_l; [nra|auto]). lra. }
  assert (Eb : vsub b (LL z u) = vadd (vadd (vsub (LL val xi) (LL z xi)) (vsub (RR val) (LL val e))) (vsub (LL val e) (LL z e))).
  { unfold b, u. rewrite (LL_move groups fs z SB), vscale_one by auto. apply (regroup (total residual_dim fs)); auto. }
  assert (B1 : vnorm (vsub b (LL z u)) <= 5 * K * (r * r)).
  { rewrite Eb. assert (G3 : length (vsub (LL val xi) (LL z xi)) = total residual_dim fs) by (rewrite vsub_length; rewrite L1; auto). assert (G4 : length (vsub (RR val) (LL val e)) = total residual_dim fs) by (rewrite vsub_length; rewrite L4; auto). assert (G5 : length (vsub (LL val e) (LL z e)) = total residual_dim fs) by (rewrite vsub_length; rewrite L1; auto).
    eapply Rle_trans; [apply norm_add; rewrite vadd_length; congruence|]. pose proof (norm_add (vsub (LL val xi) (LL z xi)) (vsub (RR val) (LL val e)) (eq_trans G3 (eq_sym G4))) as Q. pose proof (HJ xi Tx) as Q1. pose proof (HJ e Te) as Q2.
    assert (K * r * size fs xi <= K * r * (3 * r)) by (apply Rmult_le_compat_l; auto). assert (K * r * size fs e <= K * r * r) by (apply Rmult_le_compat_l; auto). lra. }
  assert (C1 : vnorm (vsub (LL z e') (LL z u)) <= M * K1 * (r * r)).
  { rewrite <- LL_diff by auto. eapply Rle_trans; [apply HB, plus_tangent; auto|]. rewrite size_diff by auto. rewrite Rmult_assoc. apply Rmult_le_compat_l; auto. }
  assert (D1 : vnorm (vsub a b) <= (13 * K + M * K1) * (r * r)).
  { eapply Rle_trans; [apply (norm_mid _ (LL z e')); rewrite ?L3; congruence|]. pose proof (norm_mid (LL z e') (LL z u) b ltac:(rewrite !L3; auto) ltac:(rewrite L3; auto)) as Q. rewrite (norm_flip (LL z u) b) in Q by (rewrite L3; auto). lra. }
  assert (S1 : vnorm b <= (4 * M + 5 * K) * r).
  { eapply Rle_trans; [apply (norm_split _ (LL z u)); rewrite L3; auto|]. pose proof (HB u Tu) as Q. assert (Q1 : size fs u <= 4 * r). { rewrite (size_flat fs). unfold u. rewrite (flat_plus groups fs e xi), vscale_one by auto. eapply Rle_trans; [apply norm_add; apply (flat_length groups fs); auto|]. rewrite <- !(size_flat fs). lra. }
    assert (Q2 : M * size fs u <= M * (4 * r)) by (apply Rmult_le_compat_l; auto). assert (Q3 : K * (r * r) <= K * r) by (apply Rmult_le_compat_l; auto; nra). lra. }
  eapply Rle_trans; [apply (sumsq_close a b _ _ ltac:(congruence) D1 S1)|]. set (K2 := 13 * K + M * K1). assert (H2 : 0 <= K2) by (unfold K2; assert (0 <= M * K1) by (apply Rmult_le_pos; auto); lra).
  assert (Q : K2 * (r * r) * (K2 * (r * r)) <= K2 * (r * r) * (K2 * r)). { apply Rmult_le_compat_l; [apply Rmult_le_pos; nra|]. apply Rmult_le_compat_l; auto; nra. }
  replace (K2 * (r * r) * (2 * ((4 * M + 5 * K) * r) + K2 * (r * r))) with (K2 * (r * r) * (2 * ((4 * M + 5 * K) * r)) + K2 * (r * r) * (K2 * (r * r))) by ring.
  replace (K2 * (2 * (4 * M + 5 * K) + K2) * (r * r * r)) with (K2 * (r * r) * (2 * ((4 * M + 5 * K) * r)) + K2 * (r * r) * (K2 * r)) by ring. lra.
Qed.

Lemma predict : rigid groups fs z -> forall b0 b1, 0 < b0 -> b0 <= b1 -> exists rho C, 0 < rho /\ 0 <= C /\ forall beta val e xi val', b0 <= beta <= b1 -> tangent E fs e -> size fs e <= rho -> moved E fs z e val ->
  damped_step E fs beta val val xi -> moved E fs val xi val' -> size fs xi <= 3 * size fs e /\ (0 < size fs e -> Rabs (quality E fs val val xi val' - 1) <= C * size fs e).
Proof.
  intros HR b0 b1 Hb0 Hb1. destruct (turn_full groups fs z SB HR) as (m & rho1 & K1 & Hm & Hrho1 & HK1 & HT). destruct (graph_near groups fs z SB) as (K & d & HK & Hd & HN). destruct LL_bounded as (M & HM & HB).
  assert (Hmm : 0 < m * m) by nra. set (h := m * m / (2 * (m * m + b1))). assert (Hh : 0 < h) by (apply Rdiv_lt_0_compat; lra). assert (Eh : b1 / (m * m + b1) = 1 - 2 * h) by (unfold h; field; lra).
  set (C1 := (13 * K + M * K1) * (2 * (4 * M + 5 * K) + (13 * K + M * K1))). assert (HMK : 0 <= M * K1) by (apply Rmult_le_pos; auto). assert (HC1 : 0 <= C1) by (apply Rmult_le_pos; lra).
  destruct (min4 rho1 (d / 2) 1 (h / (2 * K1 + 1))) as (rho & Hrho & M1 & M2 & M3 & M4); auto; [lra | lra | apply Rdiv_lt_0_compat; lra|].
  assert (Hbh : 0 < b0 * (h * h)) by (apply Rmult_lt_0_compat; [auto | apply Rmult_lt_0_compat; auto]). exists rho, (C1 / (b0 * (h * h))). split; auto. split; [apply Rmult_le_pos; auto; apply Rlt_le, Rinv_0_lt_compat; auto|].
  intros beta val e xi val' Hb Te Hs Hv Hds Hv'. destruct (HT beta val e xi val' ltac:(lra) Te ltac:(lra) Hv Hds Hv') as (e' & Te' & Hve' & Se' & Sx & Hc). split; auto. intros Hpos. set (r := size fs e) in *. pose proof Hds as (Tx & Hmin).
  pose proof (small_mul h (2 * K1) r Hh ltac:(lra) ltac:(lra) ltac:(lra)) as Hkr. assert (Hkr0 : 0 <= K1 * r) by (apply Rmult_le_pos; lra).
  assert (Hbq : beta / (m * m + beta) <= 1 - 2 * h).
  { rewrite <- Eh. assert (E1 : b1 / (m * m + b1) - beta / (m * m + beta) = m * m * (b1 - beta) / ((m * m + b1) * (m * m + beta))) by (field; lra). assert (0 <= m * m * (b1 - beta) / ((m * m + b1) * (m * m + beta))) by (apply Rmult_le_pos; [apply Rmult_le_pos; lra | apply Rlt_le, Rinv_0_lt_compat, Rmult_lt_0_compat; lra]). lra. }
  assert (Se2 : size fs e' <= (1 - 2 * h + K1 * r) * r) by (eapply Rle_trans; [exact Se'|]; apply Rmult_le_compat_r; lra).
  assert (Se3 : size fs e' <= 2 * r) by (eapply Rle_trans; [exact Se2|]; apply Rmult_le_compat_r; lra).
  pose proof (predict_core K M K1 e xi e' val val' r d HK HM HK1 ltac:(lra) ltac:(lra) ltac:(lra) HN HB Te Tx Te' Hv Hve' (Rle_refl _) Sx Se3 Hc) as HP. fold C1 in HP.
  destruct (HN e val r Te (Rle_refl _) ltac:(lra) Hv) as ((HCv & HMod) & _ & _). pose proof (legal_of groups fs z SB e val Hv) as Lv.
  assert (E0 : model E fs val val still = cost_at E fs val).
  { rewrite HMod by apply still_tangent. rewrite LL_still by auto. change (cost_at E fs val) with (cost_at (pose_env groups) fs val). rewrite HCv. f_equal. rewrite vadd_comm. apply add_zero_r. apply (RR_len groups fs z SB); auto. }
  assert (I0 : inner fs still still = 0). { unfold inner. rewrite (vsum_map_ext _ (fun _ => 0)); [apply vsum_zeros|]. intros v Hv0. unfold still. rewrite <- sumsq_dot. apply zero_sumsq. }
  destruct (Hmin still still_tangent) as (HD & _). rewrite E0, I0, (inner_flat fs) in HD. set (x := vnorm (flatv xi)) in *. destruct (vnorm_sq (flatv xi)) as (X0 & X1). fold x in X0, X1. rewrite <- X1 in HD.
  assert (Hx : h * r <= x).
  { assert (Te1 : tangent E fs (plus e 1 xi)) by (apply plus_tangent; auto). pose proof (flat_length groups fs e' (plus e 1 xi) Te' Te1) as G1. pose proof (flat_length groups fs e xi Te Tx) as G2.
    pose proof (norm_split (flatv (plus e 1 xi)) (flatv e') ltac:(auto)) as Q. rewrite norm_flip in Q by auto. rewrite <- (size_flat fs e') in Q.
    assert (Q2 : vnorm (flatv e) <= vnorm (flatv (plus e 1 xi)) + x).
    { unfold x. rewrite <- (norm_neg (flatv xi)). rewrite (flat_plus groups fs e xi), vscale_one by auto. eapply Rle_trans; [|apply norm_add; rewrite vadd_length, vneg_length; auto]. right. f_equal.
      apply (nth_ext' _ _ 0); [rewrite !vadd_length; rewrite ?vneg_length; rewrite ?vadd_length; auto|]. intros i _. rewrite !nth_vadd, nth_vneg by (rewrite ?vneg_length; rewrite ?vadd_length; auto). ring. }
    rewrite <- (size_flat fs e) in Q2. fold r in Q2. assert (K1 * (r * r) = K1 * r * r) by ring. nra. }
  set (D := cost_at E fs val - model E fs val val xi). assert (HDl : b0 * (h * h) * (r * r) <= D).
  { assert (Q1 : h * r * (h * r) <= x * x) by (apply Rmult_le_compat; auto; apply Rmult_le_pos; lra). assert (Q2 : b0 * (h * r * (h * r)) <= beta * (x * x)) by (apply Rmult_le_compat; try lra; apply Rmult_le_pos; apply Rmult_le_pos; lra). unfold D. lra. }
  assert (Hrr : 0 < r * r) by nra. assert (HDp : 0 < D). { eapply Rlt_le_trans; [|exact HDl]. apply Rmult_lt_0_compat; auto. }
  set (c' := cost_at E fs val') in *. set (mo := model E fs val val xi) in *. unfold quality. fold c' mo.
  assert (EQ : (c' - cost_at E fs val) / (mo - cost_at E fs val) - 1 = - ((c' - mo) / D)) by (unfold D; field; unfold D in HDp; lra).
  rewrite EQ, Rabs_Ropp. unfold Rdiv. rewrite Rabs_mult, (Rabs_pos_eq (/ D)) by (apply Rlt_le, Rinv_0_lt_compat; auto).
  apply (Rmult_le_reg_r D); auto. replace (Rabs (c' - mo) * / D * D) with (Rabs (c' - mo)) by (field; lra). eapply Rle_trans; [exact HP|].
  replace (C1 * (r * r * r)) with (C1 / (b0 * (h * h)) * r * (b0 * (h * h) * (r * r))) by (field; lra). apply Rmult_le_compat_l; auto.
  apply Rmult_le_pos; [|lra]. apply Rmult_le_pos; auto. apply Rlt_le, Rinv_0_lt_compat; auto.
Qed.
End Graph.
