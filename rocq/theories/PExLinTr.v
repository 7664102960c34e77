(* Bundled statements and concrete instances: the trust-region solvers with conjugate gradients on linear problems. *)
From Coq Require Import List Arith Bool ZArith Lia Permutation Reals Lra Psatz.
From Verif Require Import Num NumR Py Arr MLayout MAssign MNoise MSparse MFactor MGraph MLinear MSolver SpecLayout SpecTree SpecAssign SpecGraph SpecSparse SpecDeriv SpecSolver SpecOrder SpecInv SpecLin SpecCgLin SpecTrCg.
From Verif Require Import PBase PLayout PTree PVec PSparse PAssign PAssign2 PGraph PGraph2 PHold PExGraph PSolver PSolver2 PSolverR PInv PTotal PCg PLin PLinDl PLinCg PNear PLinTr Ex ExG ExS PExInv PExSolver PExOrder PExSym PExTwin PExLin PExLinCg PExLinDl PBook PExBook PExNear.
Import ListNotations.
Local Open Scope R_scope.

Lemma share_bounds sigma F t lambda : 0 < sigma <= F -> 0 <= t < 1 -> 0 <= lambda -> 0 < share sigma F t lambda <= 1.
Proof.
  intros (H1 & H2) Ht Hl. unfold share. assert (Hd : 0 < (1 + lambda) * F) by (apply Rmult_lt_0_compat; lra).
  assert (Hn : 0 < (1 - t) * (1 - t) * sigma) by (apply Rmult_lt_0_compat; [apply Rmult_lt_0_compat; lra | auto]).
  split; [apply Rdiv_lt_0_compat; auto|]. apply (Rmult_le_reg_r ((1 + lambda) * F)); auto.
  replace ((1 - t) * (1 - t) * sigma / ((1 + lambda) * F) * ((1 + lambda) * F)) with ((1 - t) * (1 - t) * sigma) by (field; lra).
  assert ((1 - t) * (1 - t) <= 1) by nra. assert ((1 - t) * (1 - t) * sigma <= 1 * sigma) by (apply Rmult_le_compat_r; lra).
  assert (0 <= lambda * F) by (apply Rmult_le_pos; lra). lra.
Qed.
Lemma share_mono sigma F t l1 l2 : 0 < sigma -> 0 < F -> 0 <= l1 <= l2 -> share sigma F t l2 <= share sigma F t l1.
Proof.
  intros Hs HF Hl. unfold share, Rdiv. apply Rmult_le_compat_l; [apply Rmult_le_pos; [apply Rle_0_sqr | lra]|].
  apply Rinv_le_contravar; [apply Rmult_lt_0_compat; lra | apply Rmult_le_compat_r; lra].
Qed.
Lemma shrinks th e e' k : 0 <= th <= 1 -> 0 <= e -> e' <= (1 - th) * e -> (1 - th) ^ k * e' <= (1 - th) ^ S k * e.
Proof. intros H1 H2 H3. assert (0 <= (1 - th) ^ k) by (apply pow_le; lra). cbn [pow]. replace ((1 - th) * (1 - th) ^ k * e) with ((1 - th) ^ k * ((1 - th) * e)) by ring. apply Rmult_le_compat_l; auto. Qed.

Section Chains.
Variable E : env R.
Variable fs : list (factor R).
Variable g : graph R.
Hypothesis LP : linear_problem E fs.
Hypothesis CO : classes_ok (e_cls E).
Hypothesis Hok : forall f, In f fs -> factor_ok f.
Hypothesis Hg : is_graph E fs g.
Hypothesis Hne : fs <> [].
Hypothesis Hrd : total residual_dim fs <> 0%nat.
Hypothesis Hws : well_shaped E fs.
Variable A : coo R.
Hypothesis HA : coo_ok A.
Hypothesis Hsh : m_shape A = (total residual_dim fs, l_dim (graph_layout E fs true)).
Hypothesis HJ : forall s, fresh E fs g s -> compute_whitened_residual_jacobian E g (s_assign s) (s_res s) = Ok A.
Variables (F t sigma : R).
Hypothesis HF : 0 < F.
Hypothesis HFA : forall y, length y = snd (m_shape A) -> sumsq (mapply A y) <= F * sumsq y.
Hypothesis HFD : forall y, diag_form A y y <= F * sumsq y.
Hypothesis Hcol : no_zero_column A.
Variable tol : nat -> R.
Hypothesis Htol : forall i, Rabs (tol i) <= t.
Hypothesis Ht1 : t < 1.
Hypothesis Hsig : 0 < sigma <= F.
Hypothesis Hbb : forall x, length x = l_dim (graph_layout E fs true) -> ortho A x -> sigma * sumsq x <= sumsq (mapply A x).
Variables (z : assign R) (valz : var -> pytree R) (cz : R) (rz : list R).
Hypothesis Hz : holds E fs z valz.
Hypothesis Ez : compute_cost E g z = Ok (cz, rz).
Hypothesis Hmin : forall b valb cb rb, holds E fs b valb -> compute_cost E g b = Ok (cb, rb) -> cz <= cb.
Notation fresh := (fresh E fs g).
Notation G s := (sumsq (ngrad A s)).
Notation sh := (share sigma F t).

Lemma t_pos : 0 <= t < 1.
Proof. pose proof (Rabs_pos (tol 0)). pose proof (Htol 0%nat). lra. Qed.
Lemma above s : fresh s -> 0 <= s_cost s - cz.
Proof. intros (Hc & val & Ha). pose proof (Hmin _ _ _ _ Ha Hc). lra. Qed.
Lemma excess' s : fresh s -> sigma * (s_cost s - cz) <= G s.
Proof. intros Hf. apply (excess E fs g LP CO Hok Hg Hne Hrd Hws A HA Hsh HJ sigma (proj1 Hsig) Hbb z valz cz rz Hz Ez s Hf). Qed.
Lemma stopped s : fresh s -> G s = 0 -> s_cost s = cz.
Proof. intros Hf H. pose proof (excess' s Hf) as He. pose proof (above s Hf) as Ha. rewrite H in He. assert (s_cost s - cz <= 0); [|lra]. apply (Rmult_le_reg_l sigma); lra. Qed.
Lemma share_G lambda s : fresh s -> 0 <= lambda -> sh lambda * (s_cost s - cz) <= (1 - t) * (1 - t) / ((1 + lambda) * F) * G s.
Proof.
  intros Hf Hl. pose proof (excess' s Hf) as He. unfold share.
  replace ((1 - t) * (1 - t) * sigma / ((1 + lambda) * F) * (s_cost s - cz)) with ((1 - t) * (1 - t) / ((1 + lambda) * F) * (sigma * (s_cost s - cz))) by (unfold Rdiv; ring).
  apply Rmult_le_compat_l; auto. apply Rmult_le_pos; [apply Rle_0_sqr | apply Rlt_le, Rinv_0_lt_compat, Rmult_lt_0_compat; lra].
Qed.

Lemma gn_chain step : (forall s s', step s = Ok s' -> advances E g tol s s') -> forall k s s', fresh s -> iterate k step s = Ok s' ->
  fresh s' /\ s_cost s' - cz <= (1 - sh 0) ^ k * (s_cost s - cz).
Proof.
  intros Hst. induction k as [|k IH]; intros s s' Hf H.
  - injection H as <-. split; auto. simpl pow. lra.
  - cbn in H. apply bind_ok in H. destruct H as (s1 & H1 & H2).
    destruct (gn_falls E fs g LP CO Hok Hg Hne Hrd Hws A HA Hsh HJ F t HF HFA HFD Hcol tol Htol Ht1 s s1 Hf (Hst _ _ H1)) as (Hf1 & Hc1).
    destruct (IH s1 s' Hf1 H2) as (Hf' & Hc'). split; auto. eapply Rle_trans; [exact Hc'|].
    pose proof (share_bounds sigma F t 0 Hsig t_pos ltac:(lra)) as Hb. apply shrinks; [lra | apply above; auto|].
    pose proof (share_G 0 s Hf ltac:(lra)) as Hs. rewrite Rplus_0_r, Rmult_1_l in Hs. lra.
Qed.

Lemma lm_chain cfg : 1 <= lambda_factor cfg -> 0 <= lambda_min cfg -> lm_quality_min cfg <= 1 -> forall l0, 0 <= l0 ->
  forall k s s', fresh s -> 0 <= s_extra s -> s_cost s = cz \/ s_extra s <= l0 -> iterate k (lm_step E cfg (cg_solve tol) g) s = Ok s' ->
  fresh s' /\ s_cost s' <= s_cost s /\ s_cost s' - cz <= (1 - sh l0) ^ k * (s_cost s - cz) /\
  (s_cost s' = cz \/ s_extra s' = s_extra s / lambda_factor cfg ^ k).
Proof.
  intros Hfac Hlm Hq l0 Hl0. pose proof (share_bounds sigma F t l0 Hsig t_pos Hl0) as Hb. induction k as [|k IH]; intros s s' Hf Hx Hinv H.
  - injection H as <-. split; auto. split; [lra|]. simpl pow. split; [lra|]. right. field.
  - cbn in H. apply bind_ok in H. destruct H as (s1 & H1 & H2). pose proof (above s Hf) as Ha.
    destruct (lm_falls E fs g LP CO Hok Hg Hne Hrd Hws A HA Hsh HJ F t HF HFA HFD Hcol tol Htol Ht1 cfg s s1 Hfac Hlm Hq Hf Hx H1) as (Hf1 & Hx1 & _ & Hcase).
    pose proof (above s1 Hf1) as Ha1.
    assert (Hle : s_cost s1 <= s_cost s).
    { destruct Hcase as [(_ & Hc)|(_ & Hc)]; [lra|]. pose proof (share_G (s_extra s) s Hf Hx) as Hs. pose proof (share_bounds sigma F t (s_extra s) Hsig t_pos Hx). assert (0 <= sh (s_extra s) * (s_cost s - cz)) by (apply Rmult_le_pos; lra). lra. }
    destruct (Req_dec (s_cost s) cz) as [Hopt|Hnopt].
    + assert (Hopt1 : s_cost s1 = cz) by lra. destruct (IH s1 s' Hf1 Hx1 (or_introl Hopt1) H2) as (Hf' & Hm' & Hc' & _). pose proof (above s' Hf').
      split; auto. split; [lra|]. split; [|left; lra]. replace (s_cost s - cz) with 0 by lra. rewrite Rmult_0_r. lra.
    + destruct Hinv as [?|Hinv]; [contradiction|]. destruct Hcase as [(HG & _)|(He1 & Hc1)]; [exfalso; apply Hnopt; apply stopped; auto|].
      assert (Hx1' : s_extra s1 <= l0). { rewrite He1. apply Rle_trans with (s_extra s); auto. apply (Rmult_le_reg_r (lambda_factor cfg)); [lra|]. replace (s_extra s / lambda_factor cfg * lambda_factor cfg) with (s_extra s) by (field; lra). rewrite <- (Rmult_1_r (s_extra s)) at 1. apply Rmult_le_compat_l; auto. }
      destruct (IH s1 s' Hf1 Hx1 (or_intror Hx1') H2) as (Hf' & Hm' & Hc' & Hd'). split; auto. split; [lra|]. split.
      * eapply Rle_trans; [exact Hc'|]. apply shrinks; [lra | auto|]. pose proof (share_G (s_extra s) s Hf Hx) as Hs. pose proof (share_mono sigma F t (s_extra s) l0 (proj1 Hsig) HF (conj Hx Hinv)) as Hmo.
        assert (sh l0 * (s_cost s - cz) <= sh (s_extra s) * (s_cost s - cz)) by (apply Rmult_le_compat_r; auto). lra.
      * destruct Hd' as [Hd'|Hd']; auto. right. rewrite Hd', He1. cbn [pow]. field. split; [apply pow_nonzero; lra | lra].
Qed.

Lemma dl_chain_cg cfg : dl_quality_min cfg <= 1 -> forall r0 th, 0 < r0 -> 0 <= th <= sh 0 ->
  forall k s s', fresh s -> 0 < s_extra s -> s_cost s = cz \/ r0 <= s_extra s -> th * th * (s_cost s - cz) <= sigma * (r0 * r0) -> iterate k (dl_step E cfg (cg_solve tol) g) s = Ok s' ->
  fresh s' /\ s_cost s' <= s_cost s /\ s_cost s' - cz <= (1 - th) ^ k * (s_cost s - cz) /\ (s_cost s' = cz \/ r0 <= s_extra s').
Proof.
  intros Hq r0 th Hr0 Hth. pose proof (share_bounds sigma F t 0 Hsig t_pos ltac:(lra)) as Hb. induction k as [|k IH]; intros s s' Hf Hx Hinv Hrad H.
  - injection H as <-. split; auto. split; [lra|]. simpl pow. split; [lra | auto].
  - cbn in H. apply bind_ok in H. destruct H as (s1 & H1 & H2). pose proof (above s Hf) as Ha.
    destruct (dl_falls E fs g LP CO Hok Hg Hne Hrd Hws A HA Hsh HJ F t HF HFA HFD Hcol tol Htol Ht1 cfg s s1 Hq Hf Hx H1) as (Hf1 & Hx1 & _ & Hcase).
    pose proof (above s1 Hf1) as Ha1. destruct (vnorm_sq (ngrad A s)) as (N0 & N1).
    assert (Hk0 : 0 <= (1 - t) * (1 - t) / F * G s) by (apply Rmult_le_pos; [apply Rmult_le_pos; [apply Rle_0_sqr | apply Rlt_le, Rinv_0_lt_compat; auto] | apply sumsq_nonneg]).
    assert (Hle : s_cost s1 <= s_cost s).
    { destruct Hcase as [(_ & Hc)|(_ & Hc)]; [lra|]. assert (0 <= Rmin (s_extra s * vnorm (ngrad A s)) ((1 - t) * (1 - t) / F * G s)) by (apply Rmin_glb; auto; apply Rmult_le_pos; lra). lra. }
    assert (Hrad1 : th * th * (s_cost s1 - cz) <= sigma * (r0 * r0)). { eapply Rle_trans; [|exact Hrad]. apply Rmult_le_compat_l; [apply Rle_0_sqr | lra]. }
    destruct (Req_dec (s_cost s) cz) as [Hopt|Hnopt].
    + assert (Hopt1 : s_cost s1 = cz) by lra. destruct (IH s1 s' Hf1 Hx1 (or_introl Hopt1) Hrad1 H2) as (Hf' & Hm' & Hc' & _). pose proof (above s' Hf').
      split; auto. split; [lra|]. split; [|left; lra]. replace (s_cost s - cz) with 0 by lra. rewrite Rmult_0_r. lra.
    + destruct Hinv as [?|Hinv]; [contradiction|]. destruct Hcase as [(HG & _)|(He1 & Hc1)]; [exfalso; apply Hnopt; apply stopped; auto|].
      destruct (IH s1 s' Hf1 Hx1 (or_intror (Rle_trans _ _ _ Hinv He1)) Hrad1 H2) as (Hf' & Hm' & Hc' & Hd'). split; auto. split; [lra|]. split; auto.
      eapply Rle_trans; [exact Hc'|]. apply shrinks; [lra | auto|]. set (e := s_cost s - cz) in *.
      assert (Hth1 : th * e <= (1 - t) * (1 - t) / F * G s).
      { pose proof (share_G 0 s Hf ltac:(lra)) as Hs. rewrite Rplus_0_r, Rmult_1_l in Hs. fold e in Hs. assert (th * e <= sh 0 * e) by (apply Rmult_le_compat_r; lra). lra. }
      assert (Hth2 : th * e <= s_extra s * vnorm (ngrad A s)).
      { pose proof (excess' s Hf) as Hex. fold e in Hex. rewrite <- N1 in Hex. assert (Hp0 : 0 <= s_extra s * vnorm (ngrad A s)) by (apply Rmult_le_pos; lra).
        apply Rsqr_incr_0_var; auto. unfold Rsqr. replace (th * e * (th * e)) with (th * th * e * e) by ring.
        apply Rle_trans with (sigma * (r0 * r0) * e); [apply Rmult_le_compat_r; auto|]. replace (sigma * (r0 * r0) * e) with (r0 * r0 * (sigma * e)) by ring.
        replace (s_extra s * vnorm (ngrad A s) * (s_extra s * vnorm (ngrad A s))) with (s_extra s * s_extra s * (vnorm (ngrad A s) * vnorm (ngrad A s))) by ring.
        apply Rmult_le_compat; auto; [apply Rle_0_sqr | apply Rmult_le_pos; lra | apply Rmult_le_compat; lra]. }
      assert (th * e <= Rmin (s_extra s * vnorm (ngrad A s)) ((1 - t) * (1 - t) / F * G s)) by (apply Rmin_glb; auto). unfold e in *. lra.
Qed.
End Chains.

Lemma theta_exists : forall sigma F t r e, 0 < sigma <= F -> 0 <= t < 1 -> 0 < r -> 0 <= e ->
  exists theta, 0 < theta <= share sigma F t 0 /\ theta * theta * e <= sigma * (r * r).
Proof.
  intros sigma F t r e Hs Ht Hr He. pose proof (share_bounds sigma F t 0 Hs Ht ltac:(lra)) as Hb.
  assert (Hp : 0 < sigma * (r * r)) by (apply Rmult_lt_0_compat; [lra | apply Rmult_lt_0_compat; auto]). set (q := sigma * (r * r) / (1 + e)).
  assert (Hq : 0 < q) by (apply Rdiv_lt_0_compat; lra). exists (Rmin (share sigma F t 0) (Rmin 1 q)).
  set (th := Rmin (share sigma F t 0) (Rmin 1 q)). assert (H1 : th <= share sigma F t 0) by apply Rmin_l. assert (H2 : th <= Rmin 1 q) by apply Rmin_r.
  pose proof (Rmin_l 1 q). pose proof (Rmin_r 1 q). assert (H3 : 0 < th) by (apply Rmin_glb_lt; [lra | apply Rmin_glb_lt; lra]). split; [lra|].
  assert (Hqe : q * (1 + e) = sigma * (r * r)) by (unfold q; field; lra). rewrite <- Hqe.
  apply Rle_trans with (q * e); [|apply Rmult_le_compat_l; lra]. apply Rmult_le_compat_r; auto. replace q with (1 * q) by ring. apply Rmult_le_compat; lra.
Qed.

Lemma bounds_exist E fs g : linear_problem E fs -> well_posed E fs -> graph_make E fs = Ok g -> every_column E fs g ->
  exists A sigma F, the_jacobian E fs g A /\ no_zero_column A /\ 0 < sigma <= F /\
    (forall y, length y = snd (m_shape A) -> sumsq (mapply A y) <= F * sumsq y) /\ (forall y, diag_form A y y <= F * sumsq y) /\
    (forall x, length x = l_dim (graph_layout E fs true) -> ortho A x -> sigma * sumsq x <= sumsq (mapply A x)).
Proof.
  intros LP WP Eg (a & val & c & r & A0 & Ha & Hs & Ec & EA & Hcol). destruct (rate_exists E fs g LP WP Eg) as (A & mu & HA & Hmu & Hb).
  pose proof (lin_holds E fs g WP Eg a val Ha Hs) as Hh. destruct HA as (H1 & H2 & H3). pose proof (H3 _ (fresh_of E fs g a val c r 0 Hh Ec)) as EA'. cbn [s_assign s_res] in EA'.
  assert (A = A0) by congruence. subst A0. destruct (frobenius A H1) as (F & HF & HFA & HFD). exists A, (Rmin mu F), F. split; [split; auto|]. split; auto.
  split; [split; [apply Rmin_glb_lt; auto | apply Rmin_r]|]. split; auto. split; auto. intros x Hx Ho. rewrite H2 in Hb. cbn [snd] in Hb.
  eapply Rle_trans; [|apply Hb; auto]. apply Rmult_le_compat_r; [apply sumsq_nonneg | apply Rmin_l].
Qed.

Definition gn_kind (E : env R) (g : graph R) tol (step : sstate R -> result (sstate R)) : Prop :=
  (exists cfg, step = gn_step E cfg (cg_solve tol) g) \/ (exists it, step = fixed_step E it (cg_solve tol) g).

Section Runs.
Variable E : env R.
Variable fs : list (factor R).
Variable g : graph R.
Hypothesis LP : linear_problem E fs.
Hypothesis WP : well_posed E fs.
Hypothesis Eg : graph_make E fs = Ok g.
Variable A : coo R.
Variables (sigma F : R).
Hypothesis HA : the_jacobian E fs g A.
Hypothesis Hcol : no_zero_column A.
Hypothesis Hsig : 0 < sigma <= F.
Hypothesis HFA : forall y, length y = snd (m_shape A) -> sumsq (mapply A y) <= F * sumsq y.
Hypothesis HFD : forall y, diag_form A y y <= F * sumsq y.
Hypothesis Hbb : forall x, length x = l_dim (graph_layout E fs true) -> ortho A x -> sigma * sumsq x <= sumsq (mapply A x).
Variables (tol : nat -> R) (t : R).
Hypothesis Htol : forall i, Rabs (tol i) <= t.
Hypothesis Ht1 : t < 1.
Variables (z : assign R) (valz : var -> pytree R) (cz : R) (rz : list R).
Hypothesis Hz : is_minimum E fs g z valz cz rz.
Variables (a : assign R) (val : var -> pytree R) (c0 : R) (r0 : list R).
Hypothesis Ha : holds E fs a val.
Hypothesis Ec : compute_cost E g a = Ok (c0, r0).
Variables (k : nat) (st : sstate R).

Lemma run_gn step : gn_kind E g tol step -> iterate k step (mkState 0 a c0 r0 false 0) = Ok st ->
  fresh E fs g st /\ s_cost st - cz <= (1 - share sigma F t 0) ^ k * (c0 - cz).
Proof.
  intros Hk H. destruct (posed_graph E fs WP) as (Hne & _ & Hrd & Hpd). pose proof WP as [CO Hok Hws _ _]. destruct (made E fs g Hok Eg) as (Hg & _).
  destruct (to_held E fs g WP Eg z valz cz rz Hz) as (z' & Hz' & Ez' & Hmin). destruct HA as (H1 & H2 & H3).
  apply (gn_chain E fs g LP CO Hok Hg Hne Hrd Hws A H1 H2 H3 F t sigma ltac:(lra) HFA HFD Hcol tol Htol Ht1 Hsig Hbb z' valz cz rz Hz' Ez' Hmin step) with (s := mkState 0 a c0 r0 false 0); auto.
  - destruct Hk as [(cfg & ->)|(it & ->)]; intros s s' Hst; [eapply gn_advances | eapply fixed_advances]; eauto.
  - eapply fresh_of; eauto.
Qed.
Lemma run_lm cfg : 0 <= lambda_initial cfg -> 1 <= lambda_factor cfg -> 0 <= lambda_min cfg -> lm_quality_min cfg <= 1 ->
  iterate k (lm_step E cfg (cg_solve tol) g) (mkState 0 a c0 r0 false (lambda_initial cfg)) = Ok st ->
  fresh E fs g st /\ s_cost st - cz <= (1 - share sigma F t (lambda_initial cfg)) ^ k * (c0 - cz) /\ (s_cost st = cz \/ s_extra st = lambda_initial cfg / lambda_factor cfg ^ k).
Proof.
  intros L1 L2 L3 L4 H. destruct (posed_graph E fs WP) as (Hne & _ & Hrd & Hpd). pose proof WP as [CO Hok Hws _ _]. destruct (made E fs g Hok Eg) as (Hg & _).
  destruct (to_held E fs g WP Eg z valz cz rz Hz) as (z' & Hz' & Ez' & Hmin). destruct HA as (H1 & H2 & H3).
  destruct (lm_chain E fs g LP CO Hok Hg Hne Hrd Hws A H1 H2 H3 F t sigma ltac:(lra) HFA HFD Hcol tol Htol Ht1 Hsig Hbb z' valz cz rz Hz' Ez' Hmin cfg L2 L3 L4 (lambda_initial cfg) L1 k (mkState 0 a c0 r0 false (lambda_initial cfg)) st (fresh_of E fs g a val c0 r0 _ Ha Ec) L1 (or_intror (Rle_refl _)) H) as (R1 & _ & R2 & R3). auto.
Qed.
Lemma run_dl cfg theta : 0 < radius_initial cfg -> dl_quality_min cfg <= 1 -> 0 <= theta <= share sigma F t 0 -> theta * theta * (c0 - cz) <= sigma * (radius_initial cfg * radius_initial cfg) ->
  iterate k (dl_step E cfg (cg_solve tol) g) (mkState 0 a c0 r0 false (radius_initial cfg)) = Ok st ->
  fresh E fs g st /\ s_cost st - cz <= (1 - theta) ^ k * (c0 - cz) /\ (s_cost st = cz \/ radius_initial cfg <= s_extra st).
Proof.
  intros L1 L2 L3 L4 H. destruct (posed_graph E fs WP) as (Hne & _ & Hrd & Hpd). pose proof WP as [CO Hok Hws _ _]. destruct (made E fs g Hok Eg) as (Hg & _).
  destruct (to_held E fs g WP Eg z valz cz rz Hz) as (z' & Hz' & Ez' & Hmin). destruct HA as (H1 & H2 & H3).
  destruct (dl_chain_cg E fs g LP CO Hok Hg Hne Hrd Hws A H1 H2 H3 F t sigma ltac:(lra) HFA HFD Hcol tol Htol Ht1 Hsig Hbb z' valz cz rz Hz' Ez' Hmin cfg L2 (radius_initial cfg) theta L1 L3 k (mkState 0 a c0 r0 false (radius_initial cfg)) st (fresh_of E fs g a val c0 r0 _ Ha Ec) L1 (or_intror (Rle_refl _)) L4 H) as (R1 & _ & R2 & R3). auto.
Qed.
End Runs.

Lemma cg_rates : forall (E : env R) fs g, linear_problem E fs -> well_posed E fs -> graph_make E fs = Ok g -> every_column E fs g ->
  exists sigma F, 0 < sigma <= F /\ forall (tol : nat -> R) t a val c0 r0 z valz cz rz, (forall i, Rabs (tol i) <= t) -> t < 1 ->
  assigns E fs a val -> same_layout (as_layout a) (g_layout g) -> compute_cost E g a = Ok (c0, r0) -> is_minimum E fs g z valz cz rz -> forall k st,
  (forall step, (exists cfg, step = gn_step E cfg (cg_solve tol) g) \/ (exists it, step = fixed_step E it (cg_solve tol) g) ->
     runs step k (mkState 0 a c0 r0 false 0) st ->
     current E g st /\ s_cost st - cz <= (1 - share sigma F t 0) ^ k * (c0 - cz)) /\
  (forall cfg, 0 <= lambda_initial cfg -> 1 <= lambda_factor cfg -> 0 <= lambda_min cfg -> lm_quality_min cfg <= 1 ->
     runs (lm_step E cfg (cg_solve tol) g) k (mkState 0 a c0 r0 false (lambda_initial cfg)) st ->
     current E g st /\ s_cost st - cz <= (1 - share sigma F t (lambda_initial cfg)) ^ k * (c0 - cz) /\
     (s_cost st = cz \/ s_extra st = lambda_initial cfg / lambda_factor cfg ^ k)) /\
  (forall cfg theta, 0 < radius_initial cfg -> dl_quality_min cfg <= 1 ->
     0 <= theta <= share sigma F t 0 -> theta * theta * (c0 - cz) <= sigma * (radius_initial cfg * radius_initial cfg) ->
     runs (dl_step E cfg (cg_solve tol) g) k (mkState 0 a c0 r0 false (radius_initial cfg)) st ->
     current E g st /\ s_cost st - cz <= (1 - theta) ^ k * (c0 - cz) /\ (s_cost st = cz \/ radius_initial cfg <= s_extra st)).
Proof.
  intros E fs g LP WP Eg Hev. destruct (bounds_exist E fs g LP WP Eg Hev) as (A & sigma & F & HA & Hcol & Hsig & HFA & HFD & Hbb). exists sigma, F. split; auto.
  intros tol t a val c0 r0 z valz cz rz Htol Ht1 Ha Hs Ec Hz k st. pose proof (lin_holds E fs g WP Eg a val Ha Hs) as Hh. split; [|split].
  - intros step Hk Hr. destruct (run_gn E fs g LP WP Eg A sigma F HA Hcol Hsig HFA HFD Hbb tol t Htol Ht1 z valz cz rz Hz a val c0 r0 Hh Ec k st step Hk (runs_iterate _ _ _ _ Hr)) as ((R1 & _) & R2). auto.
  - intros cfg L1 L2 L3 L4 Hr. destruct (run_lm E fs g LP WP Eg A sigma F HA Hcol Hsig HFA HFD Hbb tol t Htol Ht1 z valz cz rz Hz a val c0 r0 Hh Ec k st cfg L1 L2 L3 L4 (runs_iterate _ _ _ _ Hr)) as ((R1 & _) & R2 & R3). auto.
  - intros cfg theta L1 L2 L3 L4 Hr. destruct (run_dl E fs g LP WP Eg A sigma F HA Hcol Hsig HFA HFD Hbb tol t Htol Ht1 z valz cz rz Hz a val c0 r0 Hh Ec k st cfg theta L1 L2 L3 L4 (runs_iterate _ _ _ _ Hr)) as ((R1 & _) & R2 & R3). auto.
Qed.

(* whole solves *)
Section Solve.
Variable E : env R.
Variable fs : list (factor R).
Variable g : graph R.
Hypothesis WP : well_posed E fs.
Hypothesis Eg : graph_make E fs = Ok g.
Variable lin : linear_solver (T := R).
Hypothesis Hlin : total_solver lin.
Variables (init : assign R) (val : var -> pytree R) (c0 : R) (r0 : list R).
Hypothesis Hi : assigns E fs init val.
Hypothesis Ec0 : compute_cost E g init = Ok (c0, r0).
Variable P : nat -> R -> Prop.
Lemma solve_costs step extra solve cap fuel : nonlinear_solver E lin step extra solve ->
  (exists r, solve fuel g init = Some r /\ solve_outcome E step extra 1 cap g init r) ->
  (forall a k st, holds E fs a val -> compute_cost E g a = Ok (c0, r0) -> runs (step g) k (mkState 0 a c0 r0 false extra) st -> fresh E fs g st /\ P k (s_cost st)) ->
  exists a' val' c' r' k, solve fuel g init = Some (Ok a') /\ assigns E fs a' val' /\ compute_cost E g a' = Ok (c', r') /\ (1 <= k <= cap)%nat /\ P k c'.
Proof.
  intros Hsol (r & Er & Ho) HP. pose proof WP as [CO Hok Hws _ _]. destruct (made E fs g Hok Eg) as (Hg & _).
  destruct (never_raises E fs WP) as (g' & Eg' & Hnr). assert (g' = g) by congruence. subst g'. destruct (Hnr lin step extra solve Hlin Hsol init val Hi) as (Hne' & _).
  destruct (update_holds E CO fs init val Hi) as (a & Eu & Ha). unfold solve_outcome in Ho. rewrite (ig_layout _ _ _ Hg), Eu in Ho.
  destruct Ho as [(e & H & _)|(a1 & H & Ho)]; [discriminate|]. injection H as <-.
  assert (Ec : compute_cost E g a = Ok (c0, r0)) by (rewrite <- Ec0; apply (cost_values E fs g WP Eg a init val); auto; apply holds_assigns; auto).
  rewrite Ec in Ho. destruct Ho as [(e & H & _)|(c & res & run & H & Hrun & Hr)]; [discriminate|]. injection H as <- <-.
  destruct Hrun as [(k & st & Hk & Hruns & _ & ->)|(k & st & e & _ & _ & _ & _ & ->)]; [|exfalso; cbn in Hr; subst r; eapply Hne'; eauto].
  cbn [bind] in Hr. destruct (HP a k st Ha Ec Hruns) as ((Hc & vk & Hh) & Hp).
  destruct (update_back E CO fs (s_assign st) vk init val Hh Hi) as (a' & Eb & Ha'). exists a', vk, (s_cost st), (s_res st), k. split; [congruence|]. split; auto. split; auto.
  rewrite <- Hc. apply (cost_values E fs g WP Eg a' (s_assign st) vk); auto. apply holds_assigns; auto.
Qed.
Lemma fixed_costs fuel unroll it : same_layout (as_layout init) (g_layout g) -> (1 <= it)%Z -> (Z.to_nat it <= fuel)%nat ->
  (forall st, iterate (Z.to_nat it) (fixed_step E it lin g) (mkState 0 init c0 r0 false 0) = Ok st -> fresh E fs g st /\ P (Z.to_nat it) (s_cost st)) ->
  exists a' val' c' r', fixed_solve E fuel unroll it lin g init = Some (Ok a') /\ assigns E fs a' val' /\ compute_cost E g a' = Ok (c', r') /\ P (Z.to_nat it) c'.
Proof.
  intros Hs Hit Hf HP. destruct (posed_graph E fs WP) as (Hne & _ & Hrd & Hpd). pose proof WP as [CO Hok Hws _ _]. destruct (made E fs g Hok Eg) as (Hg & _).
  pose proof (lin_holds E fs g WP Eg init val Hi Hs) as Ha.
  destruct (cost_total E CO fs g Hok Hg Hne Hws init (ex_intro _ val Ha)) as (c1 & r1 & Ec1 & Hl). rewrite Ec0 in Ec1. injection Ec1 as <- <-.
  set (s0 := mkState 0 init c0 r0 false 0) in *. assert (Hr0 : ready E fs s0) by (split; [exists val; auto | auto]).
  destruct (iterate_total E fs (fixed_step E it lin g) (fun s => fixed_total E CO fs g Hok Hg Hne Hrd Hws lin Hlin it s) (Z.to_nat it) s0 Hr0) as (st & Est & Hst).
  destruct (HP st Est) as ((Hc & vk & Hk) & Hp). exists (s_assign st), vk, (s_cost st), (s_res st). split; [|split; [apply holds_assigns; auto | auto]].
  unfold fixed_solve, init_state. rewrite Ec0. cbn [bind fst snd]. change n0 with 0. fold s0. rewrite Est.
  destruct unroll; [reflexivity|]. destruct (Z.to_nat it) as [|k] eqn:Ek; [lia|].
  rewrite (fixed_loop E lin g it k fuel s0); auto; [rewrite Est; auto|]. cbn. lia.
Qed.
End Solve.

Lemma cg_solves : forall (E : env R) fs g, linear_problem E fs -> well_posed E fs -> graph_make E fs = Ok g -> every_column E fs g ->
  exists sigma F, 0 < sigma <= F /\ forall (tol : nat -> R) t init val c0 r0 z valz cz rz, (forall i, Rabs (tol i) <= t) -> t < 1 ->
  assigns E fs init val -> compute_cost E g init = Ok (c0, r0) -> is_minimum E fs g z valz cz rz ->
  (forall cfg fuel, (iteration_cap (max_iterations cfg) <= fuel)%nat ->
     exists a' val' c r k, gn_solve E fuel cfg (cg_solve tol) g init = Some (Ok a') /\ assigns E fs a' val' /\ compute_cost E g a' = Ok (c, r) /\
       (1 <= k <= iteration_cap (max_iterations cfg))%nat /\ c - cz <= (1 - share sigma F t 0) ^ k * (c0 - cz)) /\
  (forall cfg fuel, (iteration_cap (max_iterations (lm_term cfg)) <= fuel)%nat ->
     0 <= lambda_initial cfg -> 1 <= lambda_factor cfg -> 0 <= lambda_min cfg -> lm_quality_min cfg <= 1 ->
     exists a' val' c r k, lm_solve E fuel cfg (cg_solve tol) g init = Some (Ok a') /\ assigns E fs a' val' /\ compute_cost E g a' = Ok (c, r) /\
       (1 <= k <= iteration_cap (max_iterations (lm_term cfg)))%nat /\ c - cz <= (1 - share sigma F t (lambda_initial cfg)) ^ k * (c0 - cz)) /\
  (forall cfg fuel theta, (iteration_cap (max_iterations (dl_term cfg)) <= fuel)%nat -> 0 < radius_initial cfg -> dl_quality_min cfg <= 1 ->
     0 <= theta <= share sigma F t 0 -> theta * theta * (c0 - cz) <= sigma * (radius_initial cfg * radius_initial cfg) ->
     exists a' val' c r k, dl_solve E fuel cfg (cg_solve tol) g init = Some (Ok a') /\ assigns E fs a' val' /\ compute_cost E g a' = Ok (c, r) /\
       (1 <= k <= iteration_cap (max_iterations (dl_term cfg)))%nat /\ c - cz <= (1 - theta) ^ k * (c0 - cz)) /\
  (forall fuel unroll it, same_layout (as_layout init) (g_layout g) -> (1 <= it)%Z -> (Z.to_nat it <= fuel)%nat ->
     exists a' val' c r, fixed_solve E fuel unroll it (cg_solve tol) g init = Some (Ok a') /\ assigns E fs a' val' /\ compute_cost E g a' = Ok (c, r) /\
       c - cz <= (1 - share sigma F t 0) ^ Z.to_nat it * (c0 - cz)).
Proof.
  intros E fs g LP WP Eg Hev. destruct (bounds_exist E fs g LP WP Eg Hev) as (A & sigma & F & HA & Hcol & Hsig & HFA & HFD & Hbb). exists sigma, F. split; auto.
  intros tol t init val c0 r0 z valz cz rz Htol Ht1 Hi Ec Hz.
  split; [|split; [|split]].
  - intros cfg fuel Hfu. apply (solve_costs E fs g WP Eg (cg_solve tol) (cg_total tol) init val c0 r0 Hi Ec (fun k c => c - cz <= (1 - share sigma F t 0) ^ k * (c0 - cz)) _ _ _ _ fuel (solver_gn E (cg_solve tol) cfg)).
    + destruct (solvers_terminate E g init (cg_solve tol) fuel) as (Hx & _). auto.
    + intros a k st Ha Ea Hr. apply (run_gn E fs g LP WP Eg A sigma F HA Hcol Hsig HFA HFD Hbb tol t Htol Ht1 z valz cz rz Hz a val c0 r0 Ha Ea k st _ (or_introl (ex_intro _ cfg eq_refl)) (runs_iterate _ _ _ _ Hr)).
  - intros cfg fuel Hfu L1 L2 L3 L4. apply (solve_costs E fs g WP Eg (cg_solve tol) (cg_total tol) init val c0 r0 Hi Ec (fun k c => c - cz <= (1 - share sigma F t (lambda_initial cfg)) ^ k * (c0 - cz)) _ _ _ _ fuel (solver_lm E (cg_solve tol) cfg)).
    + destruct (solvers_terminate E g init (cg_solve tol) fuel) as (_ & Hx & _). auto.
    + intros a k st Ha Ea Hr. destruct (run_lm E fs g LP WP Eg A sigma F HA Hcol Hsig HFA HFD Hbb tol t Htol Ht1 z valz cz rz Hz a val c0 r0 Ha Ea k st cfg L1 L2 L3 L4 (runs_iterate _ _ _ _ Hr)) as (R1 & R2 & _). auto.
  - intros cfg fuel theta Hfu L1 L2 L3 L4. apply (solve_costs E fs g WP Eg (cg_solve tol) (cg_total tol) init val c0 r0 Hi Ec (fun k c => c - cz <= (1 - theta) ^ k * (c0 - cz)) _ _ _ _ fuel (solver_dl E (cg_solve tol) cfg)).
    + destruct (solvers_terminate E g init (cg_solve tol) fuel) as (_ & _ & Hx). auto.
    + intros a k st Ha Ea Hr. destruct (run_dl E fs g LP WP Eg A sigma F HA Hcol Hsig HFA HFD Hbb tol t Htol Ht1 z valz cz rz Hz a val c0 r0 Ha Ea k st cfg theta L1 L2 L3 L4 (runs_iterate _ _ _ _ Hr)) as (R1 & R2 & _). auto.
  - intros fuel unroll it Hs Hit Hfu. apply (fixed_costs E fs g WP Eg (cg_solve tol) (cg_total tol) init val c0 r0 Hi Ec (fun k c => c - cz <= (1 - share sigma F t 0) ^ k * (c0 - cz)) fuel unroll it Hs Hit Hfu).
    intros st Est. apply (run_gn E fs g LP WP Eg A sigma F HA Hcol Hsig HFA HFD Hbb tol t Htol Ht1 z valz cz rz Hz init val c0 r0 (lin_holds E fs g WP Eg init val Hi Hs) Ec (Z.to_nat it) st _ (or_intror (ex_intro _ it eq_refl)) Est).
Qed.

(* ---- the chain of two scalars ---- *)
Lemma chain_cost : exists g, graph_make exLE chain_fs = Ok g /\ every_column exLE chain_fs g /\
  forall x y, exists r, compute_cost exLE g (scalars [vx; vy] [x; y]) = Ok ((x - 1) * (x - 1) + 4 * ((y - x - 2) * (y - x - 2)) + (y - 7) * (y - 7), r).
Proof.
  destruct chain_inexact as (g & c0 & r0 & A0 & Eg & Ec & Hs & EA & _ & Hc & _). exists g. split; auto. split.
  - exists (scalars [vx; vy] [0; 0]), (fun v => if Nat.eqb (v_id v) 0 then leaf1 [0] else leaf1 [0]), c0, r0, A0. split; [apply chain_assigns|]. auto.
  - intros x y. injection Eg as <-. eexists. comp. f_equal. f_equal. unfold Rlit. lra.
Qed.
Lemma chain_rates : exists g z valz cz rz c0 r0, linear_problem exLE chain_fs /\ well_posed exLE chain_fs /\ graph_make exLE chain_fs = Ok g /\ every_column exLE chain_fs g /\
  assigns exLE chain_fs (scalars [vx; vy] [0; 0]) (two_of 0 0) /\ same_layout (as_layout (scalars (T := R) [vx; vy] [0; 0])) (g_layout g) /\
  compute_cost exLE g (scalars [vx; vy] [0; 0]) = Ok (c0, r0) /\ c0 = 66 /\ is_minimum exLE chain_fs g z valz cz rz /\ cz = 64 / 9 /\
  (forall i, Rabs (inexact_tolerance (1 / 10) i) <= 1 / 10) /\
  0 <= lambda_initial (lm_default (T := R) 100) /\ 1 <= lambda_factor (lm_default (T := R) 100) /\ 0 <= lambda_min (lm_default (T := R) 100) /\ lm_quality_min (lm_default (T := R) 100) <= 1 /\
  0 < radius_initial (dl_default (T := R) 100) /\ dl_quality_min (dl_default (T := R) 100) <= 1.
Proof.
  destruct chain_cost as (g & Eg & Hev & Hc). destruct (Hc 0 0) as (r0 & E0). destruct (Hc (25 / 9) (47 / 9)) as (rz & Ez).
  exists g, (scalars [vx; vy] [25 / 9; 47 / 9]), (two_of (25 / 9) (47 / 9)). do 4 eexists. split; [exact chain_linear|]. split; [exact chain_posed|]. split; auto. split; auto.
  split; [apply two_assigns; reflexivity|]. split; [injection Eg as <-; repeat split; reflexivity|]. split; [exact E0|]. split; [lra|]. split; [|split; [|split]].
  - split; [apply two_assigns; reflexivity|]. split; [exact Ez|]. intros b valb cb rb Hb Eb. destruct (two_values exLE chain_fs b valb eq_refl eq_refl (wp_classes _ _ chain_posed) Hb) as (x & y & Hx & Hy).
    rewrite (two_cost exLE chain_fs g b valb x y) in Eb by (auto; apply chain_posed). destruct (Hc x y) as (r' & E'). rewrite E' in Eb. injection Eb as <- <-.
    set (u := x - 25 / 9). set (v := y - 47 / 9). replace x with (u + 25 / 9) by (unfold u; lra). replace y with (v + 47 / 9) by (unfold v; lra).
    pose proof (Rle_0_sqr u). pose proof (Rle_0_sqr v). pose proof (Rle_0_sqr (v - u)). unfold Rsqr in *. lra.
  - lra.
  - intros i. unfold inexact_tolerance. change (ndiv (T := R)) with Rdiv. cbn [nlit NumR]. unfold Rlit. rewrite <- INR_IZR_INZ.
    assert (1 <= INR (i + 1)) by (rewrite plus_INR; pose proof (pos_INR i); simpl; lra).
    assert (H1 : 0 < 1 / 10 / (INR (i + 1) / 1)) by (apply Rdiv_lt_0_compat; lra). rewrite Rabs_pos_eq by lra.
    apply (Rmult_le_reg_r (INR (i + 1))); [lra|]. replace (1 / 10 / (INR (i + 1) / 1) * INR (i + 1)) with (1 / 10) by (field; lra). lra.
  - comp. unfold Rlit. lra.
Qed.

(* with tolerance 1 the first guess, zero, is good enough, and nothing ever moves *)
Lemma loose_tolerance : exists (E : env R) fs g a val z valz cz rz c0 r0 st, linear_problem E fs /\ well_posed E fs /\ graph_make E fs = Ok g /\ every_column E fs g /\
  assigns E fs a val /\ same_layout (as_layout a) (g_layout g) /\ compute_cost E g a = Ok (c0, r0) /\ is_minimum E fs g z valz cz rz /\ cz < c0 /\
  fixed_step E 100 (cg_solve (fun _ => 1)) g (mkState 0 a c0 r0 false 0) = Ok st /\ s_assign st = a /\ s_cost st = c0.
Proof.
  assert (Hc : forall x, exists r, compute_cost exSE (graph_of one_anchor) (scalars [vx] [x]) = Ok ((x - 1) * (x - 1), r)) by (intros x; eexists; comp; f_equal; f_equal; unfold Rlit; lra).
  destruct (Hc 1) as (rz & Ez). assert (E0 : compute_cost exSE (graph_of one_anchor) (scalars [vx] [0]) = Ok (1, [-1])) by (comp; f_equal; f_equal; [|f_equal]; unfold Rlit; lra).
  exists exSE, one_anchor, (graph_of one_anchor), (scalars [vx] [0]), (fun _ => leaf1 [0]), (scalars [vx] [1]), (fun _ => leaf1 [1]), ((1 - 1) * (1 - 1)), rz, 1, [-1], (mkState 1 (scalars [vx] [0]) 1 [-1] false 0).
  split; [exact anchor_linear|]. split; [exact anchor_posed|]. split; [reflexivity|]. split; [|split; [apply scalar_assigns|split; [repeat split; reflexivity|split; [exact E0|split; [|split; [lra|split; [|split; reflexivity]]]]]]].
  - exists (scalars [vx] [0]), (fun _ => leaf1 [0]), 1, [-1]. eexists. split; [apply scalar_assigns|]. split; [repeat split; reflexivity|]. split; [exact E0|]. split; [comp; reflexivity|].
    intros j Hj. assert (Hj' : (j < 1)%nat) by exact Hj. destruct j; [|lia]. exists 0%nat. eexists. split; [left; reflexivity|]. unfold Rlit. lra.
  - split; [apply scalar_assigns|]. split; [exact Ez|]. intros b valb cb rb _ Eb. unfold compute_cost in Eb. apply bind_ok in Eb. destruct Eb as (r & _ & Eb). injection Eb as <- <-. pose proof (sumsq_nonneg r). lra.
  - comp. match goal with |- context [Rltb ?a ?b] => replace (Rltb a b) with false end.
    2:{ symmetry. apply Rltb_no. eapply Rle_trans; [|apply Rmax_l]. lra. }
    cbv iota beta. do 2 f_equal; unfold Rlit; try lra; repeat f_equal; try lra.
Qed.
