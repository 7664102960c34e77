(* Proofs: pose graphs tied to a prior are rigid; runs of Gauss-Newton turns. *)
From Coq Require Import List Arith Bool Lia Reals Lra Psatz.
From Verif Require Import Num NumR Py Arr MLayout MAssign MNoise MSparse MFactor MGraph MLie MPose SpecLayout SpecTree SpecAssign SpecNoise SpecGraph SpecLie SpecPose SpecZero SpecSpatial SpecTwin SpecInv SpecOrder SpecBook SpecNear SpecBasin PGraph PVec PLie PPose PFrame PSolverR PNoise PDescent PLocal PLin PLinDl POrder PDeriv PTwin2 PFree PZero PJacZero PNear PSpatial PSpatial2 PSpatial3 PSpatial4 PBook PBasin4 PBasin5 PBasin6 PBasin7 PBasin8 PBasin9.
Import ListNotations.
Local Open Scope R_scope.

Lemma neg_zero (a : list R) k : vneg a = vzero k -> length a = k -> a = vzero k.
Proof.
  intros H L. apply (nth_ext' _ _ 0); [rewrite vzero_length; auto|]. intros i _. rewrite nth_zero. assert (E : nth i (vneg a) 0 = 0) by (rewrite H; apply nth_zero). rewrite nth_vneg in E. lra.
Qed.
Lemma sub_zero (a b : list R) k : vsub a b = vzero k -> length a = length b -> a = b.
Proof.
  intros H L. apply (nth_ext' _ _ 0); auto. intros i _. assert (E : nth i (vsub a b) 0 = 0) by (rewrite H; apply nth_zero). rewrite nth_vsub in E by auto. lra.
Qed.
Lemma norm_zero (a : list R) : vnorm a <= 0 -> a = vzero (length a).
Proof. intros H. destruct (vnorm_sq a) as (H0 & H1). apply (proj1 (PVec.sumsq_zero a)). replace (vnorm a) with 0 in H1 by lra. lra. Qed.

Section Group.
Variable raw : lie_ops R (list R).
Hypothesis Hk : PZero.known raw.
Lemma adj_one_id v : length v = lg_dim raw -> mvec (lg_adj raw (lg_one raw)) v = v.
Proof.
  intros Lv. destruct (near_adj raw Hk) as (C & d & HC & Hd & HN). pose proof (vzero_length (T := R) (lg_dim raw)) as Lz. pose proof (HN (vzero (lg_dim raw)) v Lv ltac:(rewrite zero_norm; lra)) as H.
  rewrite zero_norm in H. rewrite exp_zero_one in H by auto. assert (H0 : vnorm (vsub (mvec (lg_adj raw (lg_one raw)) v) v) <= 0) by lra.
  apply norm_zero in H0. apply sub_zero in H0; auto. rewrite k_adj_length; auto.
Qed.
Lemma adj_back p v : unit_pose raw p -> sized_pose raw p -> length v = lg_dim raw -> mvec (lg_adj raw (lg_inv raw p)) v = vzero (lg_dim raw) -> v = vzero (lg_dim raw).
Proof.
  intros Up Lp Lv H. rewrite <- (adj_one_id v Lv). rewrite <- (inv_r raw Hk p Up). rewrite k_adj_mul by auto. rewrite H. rewrite mvec_vzero. f_equal. apply (k_adj_shape raw Hk).
Qed.
End Group.

Lemma prior_dim groups v mu n : pose_factor groups (prior_make v mu n) -> noise_dim n = lg_dim (groups (v_ty v)).
Proof.
  intros P. remember (prior_make v mu n) as h eqn:Eh. destruct P as [v' mu' n' _ _ Hd|va' vb' Tab' n' h' Hb' _ _ _]; [injection Eh as -> -> _; auto|]. apply between_inv in Hb'. destruct Hb' as (_ & ->). discriminate.
Qed.
Lemma between_dim groups va vb Tab n : pose_factor groups (mkFactor 1 [va; vb] n [Tab]) -> noise_dim n = lg_dim (groups (v_ty va)).
Proof.
  intros P. remember (mkFactor 1 [va; vb] n [Tab]) as h eqn:Eh. destruct P as [v' mu' n' _ _ Hd|va' vb' Tab' n' h' Hb' _ _ Hd]; [discriminate|]. apply between_inv in Hb'. destruct Hb' as (_ & ->). injection Eh as -> -> -> _. auto.
Qed.
Section Graph.
Variable groups : vty -> lie_ops R (list R).
Variable fs : list (factor R).
Variable z : var -> pytree R.
Hypothesis SB : solved_by groups fs z.
Let E := pose_env groups.
Notation dimv v := (lg_dim (groups (v_ty v))).

Lemma tied_rigid : (forall v, In v (mentioned fs) -> tied fs v) -> rigid groups fs z.
Proof.
  intros HT nu (Tn & HU) v0 Hv0. pose proof (HT v0 Hv0) as Ht0. clear HT. revert Hv0. induction Ht0 as [v mu n Hf|va vb Tab n f Hb Hf Ht IH|va vb Tab n f Hb Hf Ht IH]; intros Hv0.
  - specialize (HU _ Hf). destruct (sb_factors _ _ _ SB _ Hf) as (Pf & _). pose proof (Tn v Hv0) as Ln. change (length (nu v) = dimv v) in Ln.
    pose proof (prior_dim _ _ _ _ Pf) as Hd.
    unfold residual_dim in HU. cbn [prior_make f_noise] in HU. rewrite Hd in HU.
    change (vadd (mvec (neg_eye (dimv v)) (nu v)) (vzero (dimv v)) = vzero (dimv v)) in HU. rewrite neg_eye_mvec in HU by auto. rewrite add_zero_r in HU by (rewrite vneg_length; auto). apply neg_zero in HU; auto.
  - specialize (HU _ Hf). destruct (sb_factors _ _ _ SB _ Hf) as (Pf & _). pose proof (between_inv va vb Tab n f Hb) as (Hty & ->). assert (Hva : In va (mentioned fs)) by (apply (men fs _ va Hf); cbn; auto).
    pose proof (between_dim _ _ _ _ _ Pf) as Hd.
    pose proof (Tn va Hva) as La. pose proof (Tn vb Hv0) as Lb. change (length (nu va) = dimv va) in La. change (length (nu vb) = dimv vb) in Lb. rewrite <- Hty in Lb |- *. specialize (IH Hva).
    unfold residual_dim in HU. cbn [f_noise] in HU. rewrite Hd in HU. set (raw := groups (v_ty va)) in *.
    change (vadd (mvec (lg_adj raw (lg_inv raw (lg_mul raw (lg_inv raw (params (z va))) (params (z vb))))) (nu va)) (vadd (mvec (neg_eye (lg_dim raw)) (nu vb)) (vzero (lg_dim raw))) = vzero (lg_dim raw)) in HU.
    rewrite neg_eye_mvec in HU by auto. rewrite add_zero_r in HU by (rewrite vneg_length; auto). rewrite add_neg in HU. apply sub_zero in HU; [|rewrite k_adj_length by (apply (kn groups fs z SB); auto); auto].
    rewrite <- HU, IH, mvec_vzero. f_equal. apply (k_adj_shape raw). apply (kn groups fs z SB); auto.
  - specialize (HU _ Hf). destruct (sb_factors _ _ _ SB _ Hf) as (Pf & _). pose proof (between_inv va vb Tab n f Hb) as (Hty & ->). assert (Hvb : In vb (mentioned fs)) by (apply (men fs _ vb Hf); cbn; auto).
    pose proof (between_dim _ _ _ _ _ Pf) as Hd.
    pose proof (Tn va Hv0) as La. pose proof (Tn vb Hvb) as Lb. change (length (nu va) = dimv va) in La. change (length (nu vb) = dimv vb) in Lb. specialize (IH Hvb). pose proof (sb_values _ _ _ SB va Hv0) as (Va & Ua). pose proof (sb_values _ _ _ SB vb Hvb) as (Vb & Ub). rewrite <- Hty in Lb, IH, Vb, Ub.
    pose proof (kn groups fs z SB va Hv0) as Ka. unfold residual_dim in HU. cbn [f_noise] in HU. rewrite Hd in HU. set (raw := groups (v_ty va)) in *.
    change (vadd (mvec (lg_adj raw (lg_inv raw (lg_mul raw (lg_inv raw (params (z va))) (params (z vb))))) (nu va)) (vadd (mvec (neg_eye (lg_dim raw)) (nu vb)) (vzero (lg_dim raw))) = vzero (lg_dim raw)) in HU.
    rewrite neg_eye_mvec in HU by auto. rewrite add_zero_r in HU by (rewrite vneg_length; auto). rewrite add_neg in HU. apply sub_zero in HU; [|rewrite k_adj_length by auto; auto].
    rewrite IH in HU. apply adj_back in HU; auto; [apply unit_mul; auto; apply unit_inv; auto | apply sized_mul; auto].
Qed.

Lemma basin_turn : rigid groups fs z -> forall q0, 0 < q0 -> exists q rho, q < 1 /\ 0 <= q /\ 0 < rho /\ forall beta val e xi val', 0 < beta <= q0 -> tangent E fs e -> size fs e <= rho -> moved E fs z e val ->
  damped_step E fs beta val val xi -> moved E fs val xi val' -> exists e', tangent E fs e' /\ moved E fs z e' val' /\ size fs e' <= q * size fs e.
Proof.
  intros HR q0 Hq0. destruct (turn groups fs z SB HR) as (m & rho & K & Hm & Hrho & HK & HT). assert (Hmm : 0 < m * m) by nra. set (h := m * m / (2 * (m * m + q0))). assert (Hh : 0 < h) by (apply Rdiv_lt_0_compat; lra).
  assert (Eh : q0 / (m * m + q0) = 1 - 2 * h) by (unfold h; field; lra). assert (Hq : 0 < q0 / (m * m + q0)) by (apply Rdiv_lt_0_compat; lra).
  exists (1 - h), (Rmin rho (h / (K + 1))). assert (Hhk : 0 < h / (K + 1)) by (apply Rdiv_lt_0_compat; lra). split; [lra|]. split; [lra|]. split; [apply Rmin_pos; auto|].
  intros beta val e xi val' Hb Te Hs Hm1 Hd Hm2. assert (Hs1 : size fs e <= rho) by (eapply Rle_trans; [exact Hs | apply Rmin_l]). assert (Hs2 : size fs e <= h / (K + 1)) by (eapply Rle_trans; [exact Hs | apply Rmin_r]).
  destruct (HT beta val e xi val' ltac:(lra) Te Hs1 Hm1 Hd Hm2) as (e' & T' & M' & S'). exists e'. split; auto. split; auto. eapply Rle_trans; [exact S'|]. pose proof (size_pos fs e) as P. apply Rmult_le_compat_r; auto.
  assert (Hb1 : beta / (m * m + beta) <= q0 / (m * m + q0)).
  { assert (E1 : q0 / (m * m + q0) - beta / (m * m + beta) = m * m * (q0 - beta) / ((m * m + q0) * (m * m + beta))) by (field; lra). assert (0 <= m * m * (q0 - beta) / ((m * m + q0) * (m * m + beta))) by (apply Rmult_le_pos; [apply Rmult_le_pos; lra | apply Rlt_le, Rinv_0_lt_compat, Rmult_lt_0_compat; lra]). lra. }
  assert (Hk1 : (K + 1) * size fs e <= h). { apply (Rmult_le_compat_l (K + 1)) in Hs2; [|lra]. replace ((K + 1) * (h / (K + 1))) with h in Hs2 by (field; lra). auto. }
  lra.
Qed.
Lemma basin_run : rigid groups fs z -> exists q rho, 0 <= q < 1 /\ 0 < rho /\ forall k val e val', tangent E fs e -> size fs e <= rho -> moved E fs z e val ->
  turns (gauss_newton_turn E fs) k val val' -> exists e', tangent E fs e' /\ moved E fs z e' val' /\ size fs e' <= q ^ k * size fs e.
Proof.
  intros HR. destruct (basin_turn HR (1 / 100000) ltac:(lra)) as (q & rho & Hq1 & Hq0 & Hrho & HT). exists q, rho. split; [lra|]. split; auto.
  intros k val e val' Te Hs Hm Ht. revert e Te Hs Hm. induction Ht as [x|k x y w (xi & Hd & Hmv) Ht IH]; intros e Te Hs Hm; [exists e; split; auto; split; auto; cbn [pow]; lra|].
  destruct (HT (1 / 100000) x e xi y ltac:(lra) Te Hs Hm Hd Hmv) as (e1 & T1 & M1 & S1). pose proof (size_pos fs e) as P. assert (S2 : size fs e1 <= rho) by (eapply Rle_trans; [exact S1|]; nra).
  destruct (IH e1 T1 S2 M1) as (e' & T' & M' & S'). exists e'. split; auto. split; auto. eapply Rle_trans; [exact S'|]. cbn [pow].
  replace (q * q ^ k * size fs e) with (q ^ k * (q * size fs e)) by ring. apply Rmult_le_compat_l; auto. apply pow_le; auto.
Qed.
End Graph.
