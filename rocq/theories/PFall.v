(* Full Gauss-Newton steps lower the cost when residual times curvature is small. *)
From Coq Require Import List Arith Bool ZArith Lia Reals Lra Psatz Permutation.
From Verif Require Import Num NumR Py Arr MLayout MAssign MNoise MSparse MFactor MGraph MLinear MSolver SpecLayout SpecTree SpecAssign SpecGraph SpecSparse SpecSolver SpecOrder SpecInv SpecDescent SpecCgLin SpecFall.
From Verif Require Import PBase PLayout PAssign PAssign2 PGraph PGraph2 PGraph4 PExGraph PVec PSparse PLinear PGraph5 PSolver PSolver2 PSolverR PJac PHold PInv POrder POrder2 PDescent PExDescent PRecover.
Import ListNotations.
Local Open Scope R_scope.

Lemma fall_vec (A : coo R) r r' d m F K t mu : coo_ok A -> length r = fst (m_shape A) -> length r' = length r -> 0 < mu -> 0 <= m -> 0 <= F -> 0 <= K -> 0 <= t ->
  norm_le F A -> bounded_below m A -> K * vnorm r <= t * (m + 2 * mu) ->
  normal_ok A mu (mapply (transpose A) (vneg r)) d -> vnorm (vsub r' (vadd (mapply A d) r)) <= K * sumsq d -> 0 <= 1 - 2 * t - t * t ->
  sumsq r' <= sumsq r - (1 - 2 * t - t * t) * (sumsq (mapply (transpose A) (vneg r)) / (F + mu)).
Proof.
  intros HA Hr Hr' Hmu Hm HF0 HK Ht HF Hb Hsm Hn He Hth.
  assert (Hlr : length (vneg r) = fst (m_shape A)) by (rewrite vneg_length; auto). pose proof Hn as (Hd & _).
  assert (HFg : sumsq (mapply A (mapply (transpose A) (vneg r))) <= F * sumsq (mapply (transpose A) (vneg r))) by (apply norm_mapply; auto; apply mapply_length).
  destruct (damped_lower A (vneg r) F HA Hlr HF0 HFg mu d Hmu Hn) as (D1 & D2).
  pose proof (model_change A (vneg r) HA Hlr d Hd) as Hmc. rewrite vsub_neg_add in Hmc by (rewrite mapply_length; auto). rewrite sumsq_neg in Hmc.
  set (ng := mapply (transpose A) (vneg r)) in *. set (w := vadd (mapply A d) r) in *.
  assert (Hlw : length w = length r') by (unfold w; rewrite vadd_length; rewrite ?mapply_length; lia).
  pose proof (Hb d (mapply A d) Hd (matmul_mapply A d HA Hd)) as Hlow.
  pose proof (sumsq_nonneg d) as Pd. pose proof (sumsq_nonneg w) as Pw. destruct (vnorm_sq r) as (R0 & R1). destruct (vnorm_sq w) as (W0 & W1). destruct (vnorm_sq r') as (Y0 & Y1).
  set (D := sumsq d) in *. set (P := sumsq (mapply A d)) in *. set (M := m + 2 * mu) in *. assert (HM : 0 < M) by (unfold M; lra).
  assert (HP : M * D <= P + 2 * (mu * D)) by (unfold M; lra).
  assert (HPc : sumsq w = sumsq r - (P + 2 * (mu * D))) by lra.
  assert (Hwr : vnorm w <= vnorm r). { assert (0 <= M * D) by (apply Rmult_le_pos; lra). nra. }
  assert (Hny : vnorm r' <= vnorm w + K * D).
  { assert (Er : r' = vadd (vsub r' w) w).
    { clear - Hlw. revert r' Hlw. induction w as [|x w IH]; intros [|y r'] H; try discriminate; auto. rewrite vsub_cons, vadd_cons. f_equal; [rn; lra | apply IH; auto]. }
    rewrite Er at 1. eapply Rle_trans; [apply norm_add; rewrite vsub_length; lia|]. lra. }
  assert (PKD : 0 <= K * D) by (apply Rmult_le_pos; auto).
  assert (H1 : sumsq r' <= sumsq w + 2 * (vnorm w * (K * D)) + (K * D) * (K * D)). { rewrite <- Y1, <- W1. assert (vnorm r' * vnorm r' <= (vnorm w + K * D) * (vnorm w + K * D)) by (apply Rmult_le_compat; auto). lra. }
  assert (H2 : vnorm w * (K * D) <= t * (M * D)).
  { assert (vnorm w * (K * D) <= vnorm r * (K * D)) by (apply Rmult_le_compat_r; auto). assert (K * vnorm r * D <= t * M * D) by (apply Rmult_le_compat_r; auto). lra. }
  assert (H3 : (K * D) * (K * D) <= t * t * (M * D)).
  { assert (HMD : M * D <= sumsq r) by lra. assert (Q1 : (K * vnorm r) * (K * vnorm r) <= (t * M) * (t * M)) by (apply Rmult_le_compat; auto; apply Rmult_le_pos; auto).
    apply (Rmult_le_reg_l M); auto. assert (Q2 : K * K * D * (M * D) <= K * K * D * sumsq r) by (apply Rmult_le_compat_l; auto; repeat apply Rmult_le_pos; auto).
    rewrite <- R1 in Q2. assert (Q3 : (K * vnorm r) * (K * vnorm r) * D <= (t * M) * (t * M) * D) by (apply Rmult_le_compat_r; auto). lra. }
  assert (H4 : (2 * t + t * t) * (M * D) <= (2 * t + t * t) * (P + 2 * (mu * D))) by (apply Rmult_le_compat_l; auto; nra).
  assert (PmD : 0 <= mu * D) by (apply Rmult_le_pos; lra).
  assert (H5 : (1 - 2 * t - t * t) * (sumsq ng / (F + mu)) <= (1 - 2 * t - t * t) * (P + 2 * (mu * D))) by (apply Rmult_le_compat_l; lra).
  lra.
Qed.

Lemma neg_sc (x : list R) : vneg x = vscale (-1) x.
Proof. unfold vneg, vscale. apply map_ext. intros. rn. lra. Qed.
Lemma mapply_vneg (A : coo R) x : coo_ok A -> length x = snd (m_shape A) -> mapply A (vneg x) = vneg (mapply A x).
Proof. intros HA Hx. rewrite !neg_sc. apply mapply_scale; auto. Qed.

Section Run.
Variable E : env R.
Variable fs : list (factor R).
Variable g : graph R.
Hypothesis CO : classes_ok (e_cls E).
Hypothesis Hok : forall f, In f fs -> factor_ok f.
Hypothesis Hm : graph_make E fs = Ok g.
Hypothesis Hws : well_shaped E fs.
Hypothesis Hrd : total residual_dim fs <> 0%nat.
Variables (m F K t : R).
Hypothesis Hm0 : 0 <= m.
Hypothesis HF0 : 0 <= F.
Hypothesis HK0 : 0 <= K.
Hypothesis Ht0 : 0 <= t.
Hypothesis Hth : 0 <= 1 - 2 * t - t * t.
Let mu := Rlit 1 100000.

Lemma full_inv step s s' : full_body E step -> step g s = Ok s' -> exists A ATr d, compute_whitened_residual_jacobian E g (s_assign s) (s_res s) = Ok A /\
  matmul (transpose A) (s_res s) = Ok ATr /\ cholmod_solve A (vneg ATr) n0 (s_iter s) = Ok d /\
  manifold_retract (e_cls E) (s_assign s) (mkAssign d (g_local_layout g)) = Ok (s_assign s') /\ current E g s' /\ (good E fs (fun _ _ => True) (s_assign s) -> good E fs (fun _ _ => True) (s_assign s')).
Proof.
  intros Hb H. destruct (made E fs g Hok Hm) as (Hg & _).
  assert (Hgd : good E fs (fun _ _ => True) (s_assign s) -> good E fs (fun _ _ => True) (s_assign s')).
  { intros Hs. destruct Hb as [cfg|it]; [apply (good_gn E CO fs g Hg _ (ws_preserved E fs Hws) cfg cholmod_solve s s') | apply (good_fixed E CO fs g Hg _ (ws_preserved E fs Hws) it cholmod_solve s s')]; auto using cholmod_sized. }
  assert (Hu : exists ATb delta a', gn_update E cholmod_solve g s = Ok (ATb, delta, a') /\ s_assign s' = a' /\ current E g s').
  { destruct Hb as [cfg|it]; [unfold gn_step in H | unfold fixed_step in H]; apply bind_ok in H; destruct H as (((ATb & delta) & a') & Eu & H); apply bind_ok in H; destruct H as ((c & r) & Ec & H);
    [apply bind_ok in H; destruct H as (conv & _ & H)|]; injection H as <-; exists ATb, delta, a'; (split; [auto|]); split; auto. }
  destruct Hu as (ATb & delta & a' & Eu & Ea & Hc). unfold gn_update in Eu. apply bind_ok in Eu. destruct Eu as (A & EA & Eu). apply bind_ok in Eu. destruct Eu as (b & Eb & Eu).
  apply bind_ok in Eu. destruct Eu as (d & Ed & Eu). apply bind_ok in Eu. destruct Eu as (a1 & Er & Eu). injection Eu as <- <- <-. exists A, b, d. split; [exact EA|]. split; [exact Eb|]. split; [exact Ed|]. split; [rewrite Ea; exact Er|]. split; [exact Hc | exact Hgd].
Qed.

Lemma fall_one step s s' A ng : full_body E step -> ready E fs g s -> step g s = Ok s' -> compute_whitened_residual_jacobian E g (s_assign s) (s_res s) = Ok A ->
  matmul (transpose A) (vneg (s_res s)) = Ok ng -> tame E g m F K (s, A, ng) -> K * sqrt (s_cost s) <= t * (m + 2 * mu) ->
  ready E fs g s' /\ s_cost s' <= s_cost s - (1 - 2 * t - t * t) * (sumsq ng / (F + mu)).
Proof.
  intros Hb Hs H EA Eng (T1 & T2 & T3) Hsm. destruct (full_inv step s s' Hb H) as (A1 & ATr & d & EA1 & Eb & Ed & Er & Hc & Hgd). rewrite EA in EA1. injection EA1 as <-.
  assert (Hs' : ready E fs g s') by (split; auto; apply Hgd; apply Hs). split; auto.
  destruct (ready_at E fs g CO Hok Hm Hws Hrd s A Hs EA) as (HA & Hlr & Hc0 & _ & Hlr'). rewrite sumsq_neg in Hc0.
  assert (Hmu : 0 < mu) by (unfold mu, Rlit; lra).
  rewrite matmul_mapply in Eng by (try apply transpose_ok; auto). injection Eng as <-.
  rewrite matmul_mapply in Eb by (try apply transpose_ok; auto). injection Eb as <-.
  rewrite <- mapply_vneg in Ed by (try apply transpose_ok; auto).
  assert (HlATb : length (mapply (transpose A) (vneg (s_res s))) = snd (m_shape A)) by apply mapply_length.
  assert (Hmu' : 0 < n0 + Rlit 1 100000) by (unfold Rlit; rn; lra).
  destruct (cholmod_solve_ok A _ n0 (s_iter s) HA Hmu' HlATb) as (x & Ex & Hn). rewrite Ed in Ex. injection Ex as <-.
  replace (n0 + Rlit 1 100000) with mu in Hn by (unfold mu; rn; lra).
  unfold current in Hc. destruct (prop_cost E fs g CO Hok Hm Hws Hrd s A d (s_assign s') _ _ Hs EA (proj1 Hn) Er Hc) as (Hlen & Hcs).
  rewrite Hcs, Hc0. apply (fall_vec A (s_res s) (s_res s') d m F K t mu); auto; try lia.
  - unfold vnorm. rn. rewrite <- Hc0. exact Hsm.
  - apply (T3 d (mapply A d) (s_assign s') (s_cost s') (s_res s')); auto. apply matmul_mapply; auto. apply Hn.
Qed.

Lemma falls step l s s' : full_body E step -> walk E g step l s s' -> ready E fs g s -> (forall v, In v l -> tame E g m F K v) -> K * sqrt (s_cost s) <= t * (m + 2 * mu) ->
  (1 - 2 * t - t * t) * vsum (map (fun v => sumsq (snd v) / (F + mu)) l) <= s_cost s - s_cost s' /\ 0 <= s_cost s'.
Proof.
  intros Hb Hw. assert (Hmu : 0 < mu) by (unfold mu, Rlit; lra). induction Hw as [s|s s1 s2 A ng l H EA Eng Hw IH]; intros Hs HT Hsm.
  - cbn [map]. rewrite vsum_nil. pose proof (ready_cost E fs g s Hs). lra.
  - destruct (fall_one step s s1 A ng Hb Hs H EA Eng (HT _ (or_introl eq_refl)) Hsm) as (Hs1 & Hc1).
    assert (P : 0 <= (1 - 2 * t - t * t) * (sumsq ng / (F + mu))).
    { apply Rmult_le_pos; auto. unfold Rdiv. apply Rmult_le_pos; [apply sumsq_nonneg | apply Rlt_le, Rinv_0_lt_compat; lra]. }
    destruct IH as (G1 & G2); auto.
    { intros v Hv. apply HT. right. auto. }
    { eapply Rle_trans; [|exact Hsm]. apply Rmult_le_compat_l; auto. apply sqrt_le_1_alt. lra. }
    split; auto. cbn [map]. rewrite vsum_cons. cbn [snd]. lra.
Qed.
End Run.
