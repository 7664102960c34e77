(* Bundled statements and concrete instances: what the stopping tests say about the result on linear problems. *)
From Coq Require Import List Arith Bool ZArith Lia Permutation Reals Lra Psatz.
From Verif Require Import Num NumR Py Arr MLayout MAssign MNoise MSparse MFactor MGraph MLinear MSolver SpecLayout SpecTree SpecAssign SpecGraph SpecSparse SpecDeriv SpecSolver SpecOrder SpecInv SpecLin SpecCgLin SpecTrCg SpecHalt.
From Verif Require Import PBase PLayout PTree PVec PSparse PAssign PAssign2 PGraph PGraph2 PHold PExGraph PSolver PSolver2 PSolverR PDescent PLinear PInv PTotal PCg PLin PLinDl PLinCg PNear PLinTr PHalt Ex ExG ExS PExInv PExSolver PExOrder PExSym PExTwin PExLin PExLinCg PExLinDl PBook PExBook PExNear PExLinTr PExPart.
Import ListNotations.
Local Open Scope R_scope.

Lemma method_share sigma F lin q : 0 < sigma <= F -> linear_method sigma F lin q ->
  (forall l, 0 <= l -> 0 < q l <= 1) /\ (forall l1 l2, 0 <= l1 <= l2 -> q l2 <= q l1) /\ q 0 / sigma <= / F.
Proof.
  intros Hs HM. destruct HM as [|tol t Ht Ht1].
  - assert (Hd : forall l, 0 <= l -> 0 < F + l + 1 / 100000) by (intros; lra). split; [|split].
    + intros l Hl. specialize (Hd l Hl). split; [apply Rdiv_lt_0_compat; lra|]. apply (Rmult_le_reg_r (F + l + 1 / 100000)); auto.
      replace (sigma / (F + l + 1 / 100000) * (F + l + 1 / 100000)) with sigma by (field; lra). lra.
    + intros l1 l2 Hl. unfold Rdiv. apply Rmult_le_compat_l; [lra|]. apply Rinv_le_contravar; lra.
    + replace (sigma / (F + 0 + 1 / 100000) / sigma) with (/ (F + 0 + 1 / 100000)) by (field; lra). apply Rinv_le_contravar; lra.
  - assert (Ht0 : 0 <= t < 1) by (pose proof (Rabs_pos (tol 0%nat)); pose proof (Ht 0%nat); lra). split; [|split].
    + intros l Hl. apply share_bounds; auto.
    + intros l1 l2 Hl. apply share_mono; auto; lra.
    + unfold share. replace ((1 - t) * (1 - t) * sigma / ((1 + 0) * F) / sigma) with ((1 - t) * (1 - t) * / F) by (field; lra).
      apply Rle_trans with (1 * / F); [|lra]. apply Rmult_le_compat_r; [apply Rlt_le, Rinv_0_lt_compat; lra | nra].
Qed.

(* the arithmetic behind the guarantees *)
Lemma certify cfg sigma q cz s s' d : 0 < q <= 1 -> 0 < sigma -> 0 <= parameter_tolerance cfg < 1 -> 0 <= cz <= s_cost s' -> cz <= s_cost s -> s_cost s' - cz <= (1 - q) * (s_cost s - cz) ->
  q * q * (s_cost s - cz) <= sigma * sumsq d -> tested cfg s s' d -> s_iter s' = S (s_iter s) -> s_done s' = true ->
  stop_reason cfg sigma q cz (s_cost s') (sumsq (as_storage (s_assign s'))) (s_iter s').
Proof.
  intros Hq Hs Hp Hcz Hc Hfall Hlong (Hlen & Hst & Hte) Hit Hd. unfold stop_reason. rewrite Hit. specialize (Hte Hd).
  assert (He0 : 0 <= s_cost s - cz) by lra.
  set (tol := cost_tolerance cfg) in *. set (p := parameter_tolerance cfg) in *. cbv zeta.
  destruct Hte as [H|[H|[H|H]]]; [left; lia | right; left; lia | right; right; left | right; right; right].
  - set (c := s_cost s) in *. set (c' := s_cost s') in *. destruct (Rle_lt_dec c 0) as [Hc0|Hc0].
    + assert (c' = 0) by nra. assert (cz = 0) by lra. replace (c' - cz) with 0 by lra. replace ((1 - q) * tol * cz) with 0 by (replace cz with 0; ring). lra.
    + assert (H1 : Rabs (c' - c) < tol * c). { apply (Rmult_lt_reg_r (/ c)); [apply Rinv_0_lt_compat; auto|]. replace (tol * c * / c) with tol by (field; lra). exact H. }
      assert (H2 : c - c' < tol * c) by (pose proof (Rle_abs (- (c' - c))) as H2; rewrite Rabs_Ropp in H2; lra).
      assert (Htol : 0 <= tol). { destruct (Rle_lt_dec 0 tol); auto. exfalso. pose proof (Rabs_pos (c' - c)). nra. }
      assert (H3 : (q - tol) * (c - cz) <= tol * cz) by nra.
      destruct (Rle_lt_dec q tol) as [Hqt|Hqt].
      * assert ((q - tol) * (c' - cz) <= 0) by nra. assert (0 <= (1 - q) * tol * cz) by (apply Rmult_le_pos; [apply Rmult_le_pos; lra | lra]). lra.
      * apply Rle_trans with ((q - tol) * ((1 - q) * (c - cz))); [apply Rmult_le_compat_l; lra|]. replace ((q - tol) * ((1 - q) * (c - cz))) with ((1 - q) * ((q - tol) * (c - cz))) by ring.
        replace ((1 - q) * tol * cz) with ((1 - q) * (tol * cz)) by ring. apply Rmult_le_compat_l; lra.
  - set (X := as_storage (s_assign s)) in *. set (X' := as_storage (s_assign s')) in *. change (sqrt (sumsq d)) with (vnorm d) in H. change (sqrt (sumsq X)) with (vnorm X) in H. change (sqrt (sumsq X')) with (vnorm X').
    destruct (vnorm_sq d) as (D0 & D1). destruct (vnorm_sq X) as (X0 & X1). destruct (vnorm_sq X') as (Y0 & Y1).
    assert (Htr : vnorm X <= vnorm X' + vnorm d).
    { assert (EX : X = vadd X' (vscale (-1) d)).
      { apply (nth_ext' _ _ 0); [rewrite vadd_length; rewrite ?vscale_length, Hst, ?vadd_length; auto; congruence|]. intros i Hi.
        rewrite nth_vadd by (rewrite vscale_length, Hst, vadd_length; congruence). rewrite nth_vscale, Hst, nth_vadd by auto. lra. }
      pose proof (norm_triangle X' (vscale (-1) d) ltac:(rewrite vscale_length, Hst, vadd_length; congruence)) as Ht. rewrite <- EX in Ht.
      assert (Ed : vnorm (vscale (-1) d) = vnorm d) by (apply vnorm_eq; auto; rewrite sumsq_scale, D1; ring). rewrite Ed, <- X1 in Ht.
      apply Rsqr_incr_0_var; [exact Ht | lra]. }
    set (B := (vnorm X' + p) * p / (1 - p)).
    assert (HB : vnorm d <= B).
    { unfold B. apply (Rmult_le_reg_r (1 - p)); [lra|]. replace ((vnorm X' + p) * p / (1 - p) * (1 - p)) with ((vnorm X' + p) * p) by (field; lra). nra. }
    assert (Hsq : sumsq d <= Rsqr B) by (rewrite <- D1; unfold Rsqr; apply Rmult_le_compat; auto).
    apply Rle_trans with (q * q * ((1 - q) * (s_cost s - cz))); [apply Rmult_le_compat_l; [apply Rle_0_sqr | auto]|].
    replace (q * q * ((1 - q) * (s_cost s - cz))) with ((1 - q) * (q * q * (s_cost s - cz))) by ring. replace ((1 - q) * sigma * Rsqr B) with ((1 - q) * (sigma * Rsqr B)) by ring. apply Rmult_le_compat_l; [lra|].
    eapply Rle_trans; [exact Hlong|]. apply Rmult_le_compat_l; [lra | auto].
Qed.
(* nothing to say at the minimum *)
Lemma certify_done cfg sigma q cz c x2 k : c = cz -> 0 < sigma -> q <= 1 -> stop_reason cfg sigma q cz c x2 k.
Proof.
  intros -> Hs Hq. unfold stop_reason. cbv zeta. right; right; right. rewrite Rminus_diag_eq, Rmult_0_r by auto.
  apply Rmult_le_pos; [apply Rmult_le_pos; lra | apply Rle_0_sqr].
Qed.

Lemma run_inv (step : sstate R -> result (sstate R)) (inv : sstate R -> Prop) (Q : sstate R -> Prop) :
  (forall s s', inv s -> step s = Ok s' -> inv s' /\ s_iter s' = S (s_iter s) /\ (s_done s' = true -> Q s')) ->
  forall k s s', runs step k s s' -> inv s -> s_done s = false -> inv s' /\ s_iter s' = (s_iter s + k)%nat /\ (s_done s' = true -> Q s').
Proof.
  intros Hst. induction k as [|k IH]; intros s s' H Hi Hd; inversion H; subst.
  - split; auto. split; [lia | congruence].
  - destruct (Hst _ _ Hi H2) as (I1 & I2 & I3). destruct k.
    + inversion H3; subst. split; auto. split; [lia | auto].
    + assert (Hd' : s_done s'0 = false) by (inversion H3; auto). destruct (IH _ _ H3 I1 Hd') as (J1 & J2 & J3). split; auto. split; [lia | auto].
Qed.

Section Chains.
Variable E : env R.
Variable fs : list (factor R).
Variable g : graph R.
Hypothesis LP : linear_problem E fs.
Hypothesis CO : classes_ok (e_cls E).
Hypothesis Hok : forall f, In f fs -> factor_ok f.
Hypothesis Hg : is_graph E fs g.
Hypothesis Hne : fs <> [].
Hypothesis Hrd : total residual_dim fs <> 0%nat.
Hypothesis Hws : well_shaped E fs.
Variable A : coo R.
Hypothesis HA : coo_ok A.
Hypothesis Hsh : m_shape A = (total residual_dim fs, l_dim (graph_layout E fs true)).
Hypothesis HJ : forall s, fresh E fs g s -> compute_whitened_residual_jacobian E g (s_assign s) (s_res s) = Ok A.
Variables (F sigma : R).
Hypothesis HFA : forall y, length y = snd (m_shape A) -> sumsq (mapply A y) <= F * sumsq y.
Hypothesis HFD : forall y, diag_form A y y <= F * sumsq y.
Hypothesis Hcol : no_zero_column A.
Hypothesis Hsig : 0 < sigma <= F.
Hypothesis Hbb : forall x, length x = l_dim (graph_layout E fs true) -> ortho A x -> sigma * sumsq x <= sumsq (mapply A x).
Variables (z : assign R) (valz : var -> pytree R) (cz : R) (rz : list R).
Hypothesis Hz : holds E fs z valz.
Hypothesis Ez : compute_cost E g z = Ok (cz, rz).
Hypothesis Hmin : forall b valb cb rb, holds E fs b valb -> compute_cost E g b = Ok (cb, rb) -> cz <= cb.
Variables (lin : linear_solver (T := R)) (q : R -> R).
Hypothesis HM : linear_method sigma F lin q.
Notation fresh := (fresh E fs g).
Notation G s := (sumsq (ngrad A s)).
Notation n := (l_dim (graph_layout E fs true)).

Lemma HF : 0 < F. Proof. lra. Qed.
Lemma part s lambd : fresh s -> 0 <= lambd ->
  exists x, lin A (ngrad A s) lambd (s_iter s) = Ok x /\ length x = n /\
    q lambd / sigma * G s <= vdot x (ngrad A s) /\ sumsq (mapply A x) <= vdot x (ngrad A s) /\ (ngrad A s = vzero n -> x = vzero n).
Proof.
  intros Hf Hl. pose proof (ngrad_length' E fs A Hsh s) as Hn. destruct HM as [|tol t Ht Ht1].
  - destruct (cholmod_solve_ok A (ngrad A s) lambd (s_iter s) HA) as (x & Ex & Hx); [unfold Rlit; lra | rewrite Hsh; auto|].
    exists x. split; auto. split; [rewrite (proj1 Hx), Hsh; auto|]. replace (lambd + Rlit 1 100000) with (lambd + 1 / 100000) in Hx by (unfold Rlit; lra).
    destruct (exact_lower A (lambd + 1 / 100000) F (ngrad A s) x HA ltac:(lra) HF HFA ltac:(rewrite Hsh; auto) Hx) as (H1 & H2). split; [|split; auto].
    + replace (sigma / (F + lambd + 1 / 100000) / sigma) with (/ (F + lambd + 1 / 100000)) by (field; lra). apply (Rmult_le_reg_l (F + lambd + 1 / 100000)); [lra|].
      rewrite <- Rmult_assoc, Rinv_r, Rmult_1_l by lra. rewrite <- Rplus_assoc in H1. auto.
    + intros Hz0. pose proof (res_length' E fs g CO Hok Hg Hne Hws s Hf) as Hm. destruct (normal_descent A (lambd + 1 / 100000) (vneg (s_res s)) x HA ltac:(lra)) as (Hiff & _); auto.
      * unfold vneg. rewrite map_length, Hsh. auto.
      * rewrite Hsh in Hiff. apply Hiff. exact Hz0.
  - destruct (cg_part E fs g CO Hok Hg Hne Hws A HA Hsh F t HF HFA HFD Hcol tol Ht Ht1 s lambd Hf Hl) as (x & Ex & Hx & H1 & H2 & H3). exists x. do 2 (split; auto). split; auto.
    apply (part_le F t HF) in H1; auto. unfold share. replace ((1 - t) * (1 - t) * sigma / ((1 + lambd) * F) / sigma) with ((1 - t) * (1 - t) / ((1 + lambd) * F)) by (field; lra). exact H1.
Qed.
Lemma q_pos l : 0 <= l -> 0 < q l <= 1. Proof. apply (method_share sigma F lin q Hsig HM). Qed.
Lemma q_mono l1 l2 : 0 <= l1 <= l2 -> q l2 <= q l1. Proof. apply (method_share sigma F lin q Hsig HM). Qed.
Lemma kappa_pos l : 0 <= l -> 0 < q l / sigma. Proof. intros Hl. apply Rdiv_lt_0_compat; [apply q_pos; auto | lra]. Qed.
Lemma kappa_F : q 0 / sigma <= / F. Proof. apply (method_share sigma F lin q Hsig HM). Qed.

Lemma above' s : fresh s -> 0 <= cz <= s_cost s.
Proof.
  intros (Hc & val & Ha). split; [|apply (Hmin _ _ _ _ Ha Hc)]. unfold compute_cost in Ez. apply bind_ok in Ez. destruct Ez as (r & _ & Er). injection Er as <- <-. apply sumsq_nonneg.
Qed.
Lemma excess'' s : fresh s -> sigma * (s_cost s - cz) <= G s.
Proof. intros Hf. apply (excess E fs g LP CO Hok Hg Hne Hrd Hws A HA Hsh HJ sigma (proj1 Hsig) Hbb z valz cz rz Hz Ez s Hf). Qed.
Lemma stopped' s : fresh s -> G s = 0 -> s_cost s = cz.
Proof. intros Hf H. pose proof (excess'' s Hf) as He. pose proof (above' s Hf) as Ha. rewrite H in He. assert (s_cost s - cz <= 0); [|lra]. apply (Rmult_le_reg_l sigma); lra. Qed.
Lemma less s s' ql q0 : fresh s -> 0 < q0 <= ql -> s_cost s' <= s_cost s - ql / sigma * G s -> s_cost s' - cz <= (1 - q0) * (s_cost s - cz).
Proof.
  intros Hf Hq H. pose proof (excess'' s Hf) as He. pose proof (above' s Hf) as Ha. assert (H1 : ql / sigma * (sigma * (s_cost s - cz)) <= ql / sigma * G s) by (apply Rmult_le_compat_l; auto; apply Rmult_le_pos; [lra | apply Rlt_le, Rinv_0_lt_compat; lra]).
  replace (ql / sigma * (sigma * (s_cost s - cz))) with (ql * (s_cost s - cz)) in H1 by (field; lra). assert (q0 * (s_cost s - cz) <= ql * (s_cost s - cz)) by (apply Rmult_le_compat_r; lra). lra.
Qed.
Lemma far s ql q0 d2 : fresh s -> 0 < q0 <= ql -> ql / sigma * (ql / sigma) * G s <= d2 -> q0 * q0 * (s_cost s - cz) <= sigma * d2.
Proof.
  intros Hf Hq H. pose proof (excess'' s Hf) as He. pose proof (above' s Hf) as Ha. assert (Hqq : q0 * q0 <= ql * ql) by (apply Rmult_le_compat; lra).
  apply Rle_trans with (ql * ql * (s_cost s - cz)); [apply Rmult_le_compat_r; lra|].
  apply Rle_trans with (sigma * (ql / sigma * (ql / sigma) * G s)); [|apply Rmult_le_compat_l; lra].
  apply Rle_trans with (sigma * (ql / sigma * (ql / sigma) * (sigma * (s_cost s - cz)))); [right; field; lra|].
  apply Rmult_le_compat_l; [lra|]. apply Rmult_le_compat_l; auto. apply Rle_0_sqr.
Qed.
Lemma storage_length s : fresh s -> length (as_storage (s_assign s)) = n.
Proof. intros (_ & val & Ha). apply (held_length E fs LP CO _ _ Ha). Qed.

Definition Halts cfg q0 (s' : sstate R) : Prop := stop_reason cfg sigma q0 cz (s_cost s') (sumsq (as_storage (s_assign s'))) (s_iter s').

Lemma gn_halts cfg : 0 <= parameter_tolerance cfg < 1 -> forall s s', fresh s -> gn_step E cfg lin g s = Ok s' ->
  fresh s' /\ s_iter s' = S (s_iter s) /\ (s_done s' = true -> Halts cfg (q 0) s').
Proof.
  intros Hp s s' Hf H. destruct (gn_stop E fs g LP CO Hok Hg Hne Hrd Hws A HA Hsh HJ lin (fun l => q l / sigma) kappa_pos part cfg s s' Hf H) as (Hf' & Hi & Hc & d & Hd & Ht).
  split; auto. split; auto. intros Hdn. pose proof (q_pos 0 ltac:(lra)) as Hq. eapply certify; eauto; try lra; try (apply above'; auto).
  - apply (less s s' (q 0) (q 0)); auto; lra.
  - apply (far s (q 0) (q 0)); auto; lra.
Qed.

Definition lm_inv l0 (s : sstate R) : Prop := fresh s /\ 0 <= s_extra s /\ (s_cost s = cz \/ s_extra s <= l0).
Lemma lm_halts cfg l0 : 0 <= parameter_tolerance (lm_term cfg) < 1 -> 1 <= lambda_factor cfg -> 0 <= lambda_min cfg -> lm_quality_min cfg <= 1 -> 0 <= l0 ->
  forall s s', lm_inv l0 s -> lm_step E cfg lin g s = Ok s' -> lm_inv l0 s' /\ s_iter s' = S (s_iter s) /\ (s_done s' = true -> Halts (lm_term cfg) (q l0) s').
Proof.
  intros Hp Hfac Hlm Hqm Hl0 s s' (Hf & Hx & Hinv) H. pose proof (q_pos l0 Hl0) as Hq. pose proof (above' s Hf) as Ha.
  destruct (lm_stop E fs g LP CO Hok Hg Hne Hrd Hws A HA Hsh HJ lin (fun l => q l / sigma) kappa_pos part cfg s s' Hfac Hlm Hqm Hf Hx H) as (Hf' & Hx' & Hi & Hcase). pose proof (above' s' Hf') as Ha'.
  assert (Hle : s_cost s' <= s_cost s).
  { destruct Hcase as [(_ & Hc)|(_ & Hc & _)]; [lra|]. pose proof (kappa_pos _ Hx) as K. assert (0 <= q (s_extra s) / sigma * G s) by (apply Rmult_le_pos; [lra | apply sumsq_nonneg]). lra. }
  destruct (Req_dec (s_cost s) cz) as [Hopt|Hnopt].
  { assert (Hopt' : s_cost s' = cz) by lra. split; [split; [exact Hf' | auto]|]. split; auto. intros _. apply certify_done; auto; lra. }
  destruct Hinv as [?|Hinv]; [contradiction|]. destruct Hcase as [(HG & _)|(He & Hc & d & Hd & Ht)]; [exfalso; apply Hnopt, stopped'; auto|].
  assert (Hql : 0 < q l0 <= q (s_extra s)) by (split; [lra | apply q_mono; auto]).
  split; [split; auto; split; auto; right|split; auto].
  - rewrite He. apply Rle_trans with (s_extra s); auto. apply (Rmult_le_reg_r (lambda_factor cfg)); [lra|]. replace (s_extra s / lambda_factor cfg * lambda_factor cfg) with (s_extra s * 1) by (field; lra). apply Rmult_le_compat_l; auto.
  - intros Hdn. eapply certify; eauto; try lra.
    + eapply less; eauto.
    + eapply far; eauto.
Qed.

Definition dl_inv r0 th (s : sstate R) : Prop := fresh s /\ 0 < s_extra s /\ (s_cost s = cz \/ r0 <= s_extra s) /\ th * th * (s_cost s - cz) <= sigma * (r0 * r0).
Lemma dl_halts cfg r0 th : 0 <= parameter_tolerance (dl_term cfg) < 1 -> dl_quality_min cfg <= 1 -> 0 < r0 -> 0 < th <= q 0 ->
  forall s s', dl_inv r0 th s -> dl_step E cfg lin g s = Ok s' -> dl_inv r0 th s' /\ s_iter s' = S (s_iter s) /\ (s_done s' = true -> Halts (dl_term cfg) th s').
Proof.
  intros Hp Hqm Hr0 Hth s s' (Hf & Hx & Hinv & Hrad) H. pose proof (q_pos 0 ltac:(lra)) as Hq. pose proof (above' s Hf) as Ha.
  destruct (dl_stop E fs g LP CO Hok Hg Hne Hrd Hws A HA Hsh HJ F lin (fun l => q l / sigma) HF HFA kappa_pos kappa_F part cfg s s' Hqm Hf Hx H) as (Hf' & Hx' & Hi & Hcase). pose proof (above' s' Hf') as Ha'.
  destruct (vnorm_sq (ngrad A s)) as (N0 & N1). pose proof (kappa_pos 0 ltac:(lra)) as K. assert (K1 : 0 <= q 0 / sigma * G s) by (apply Rmult_le_pos; [lra | apply sumsq_nonneg]).
  assert (Hle : s_cost s' <= s_cost s).
  { destruct Hcase as [(_ & Hc)|(_ & Hc & _)]; [lra|]. assert (0 <= Rmin (s_extra s * vnorm (ngrad A s)) (q 0 / sigma * G s)) by (apply Rmin_glb; auto; apply Rmult_le_pos; lra). lra. }
  assert (Hrad' : th * th * (s_cost s' - cz) <= sigma * (r0 * r0)). { eapply Rle_trans; [|exact Hrad]. apply Rmult_le_compat_l; [apply Rle_0_sqr | lra]. }
  destruct (Req_dec (s_cost s) cz) as [Hopt|Hnopt].
  { assert (Hopt' : s_cost s' = cz) by lra. split; [split; [exact Hf' | auto]|]. split; auto. intros _. apply certify_done; auto; lra. }
  destruct Hinv as [?|Hinv]; [contradiction|]. destruct Hcase as [(HG & _)|(He & Hc & d & Hd & Ht)]; [exfalso; apply Hnopt, stopped'; auto|].
  split; [split; auto; split; auto; split; auto; right; lra|split; auto].
  intros Hdn. set (e := s_cost s - cz) in *.
  assert (Hth1 : th * e <= q 0 / sigma * G s).
  { pose proof (less s (mkState 0 (s_assign s) (s_cost s - q 0 / sigma * G s) (s_res s) false 0) (q 0) th Hf Hth (Rle_refl _)) as Hs. cbn [s_cost] in Hs. fold e in Hs. unfold e in *. lra. }
  assert (Hth2 : th * e <= s_extra s * vnorm (ngrad A s)).
  { pose proof (excess'' s Hf) as Hex. fold e in Hex. rewrite <- N1 in Hex. assert (Hp0 : 0 <= s_extra s * vnorm (ngrad A s)) by (apply Rmult_le_pos; lra).
    apply Rsqr_incr_0_var; auto. unfold Rsqr. replace (th * e * (th * e)) with (th * th * e * e) by ring. assert (He0 : 0 <= e) by (unfold e; lra).
    apply Rle_trans with (sigma * (r0 * r0) * e); [apply Rmult_le_compat_r; auto|]. replace (sigma * (r0 * r0) * e) with (r0 * r0 * (sigma * e)) by ring.
    replace (s_extra s * vnorm (ngrad A s) * (s_extra s * vnorm (ngrad A s))) with (s_extra s * s_extra s * (vnorm (ngrad A s) * vnorm (ngrad A s))) by ring.
    apply Rmult_le_compat; auto; [apply Rle_0_sqr | apply Rmult_le_pos; lra | apply Rmult_le_compat; lra]. }
  assert (Hth3 : th * e <= Rmin (s_extra s * vnorm (ngrad A s)) (q 0 / sigma * G s)) by (apply Rmin_glb; auto).
  eapply certify; eauto; try lra.
  - unfold e in *. lra.
  - destruct Hd as [Hd|Hd]; [eapply far; eauto|]. fold e. eapply Rle_trans; [exact Hrad|]. apply Rmult_le_compat_l; [lra|]. rewrite Hd. apply Rmult_le_compat; lra.
Qed.
End Chains.

(* whole solves *)
Section Solve.
Variable E : env R.
Variable fs : list (factor R).
Variable g : graph R.
Hypothesis LP : linear_problem E fs.
Hypothesis WP : well_posed E fs.
Hypothesis Eg : graph_make E fs = Ok g.
Variable lin : linear_solver (T := R).
Hypothesis Hlin : total_solver lin.
Variables (init : assign R) (val : var -> pytree R) (c0 : R) (r0 : list R).
Hypothesis Hi : assigns E fs init val.
Hypothesis Ec0 : compute_cost E g init = Ok (c0, r0).
Variable P : nat -> R -> R -> Prop.
Lemma solve_stops step extra solve cap fuel : nonlinear_solver E lin step extra solve ->
  (exists r, solve fuel g init = Some r /\ solve_outcome E step extra 1 cap g init r) ->
  (forall a k st, holds E fs a val -> compute_cost E g a = Ok (c0, r0) -> runs (step g) k (mkState 0 a c0 r0 false extra) st -> s_done st = true ->
     fresh E fs g st /\ P k (s_cost st) (sumsq (as_storage (s_assign st)))) ->
  exists a' val' c' r' k, solve fuel g init = Some (Ok a') /\ assigns E fs a' val' /\ compute_cost E g a' = Ok (c', r') /\ (1 <= k <= cap)%nat /\ P k c' (size2 fs val').
Proof.
  intros Hsol (r & Er & Ho) HP. pose proof WP as [CO Hok Hws _ _]. destruct (made E fs g Hok Eg) as (Hg & _).
  destruct (never_raises E fs WP) as (g' & Eg' & Hnr). assert (g' = g) by congruence. subst g'. destruct (Hnr lin step extra solve Hlin Hsol init val Hi) as (Hne' & _).
  destruct (update_holds E CO fs init val Hi) as (a & Eu & Ha). unfold solve_outcome in Ho. rewrite (ig_layout _ _ _ Hg), Eu in Ho.
  destruct Ho as [(e & H & _)|(a1 & H & Ho)]; [discriminate|]. injection H as <-.
  assert (Ec : compute_cost E g a = Ok (c0, r0)) by (rewrite <- Ec0; apply (cost_values E fs g WP Eg a init val); auto; apply holds_assigns; auto).
  rewrite Ec in Ho. destruct Ho as [(e & H & _)|(c & res & run & H & Hrun & Hr)]; [discriminate|]. injection H as <- <-.
  destruct Hrun as [(k & st & Hk & Hruns & Hdn & ->)|(k & st & e & _ & _ & _ & _ & ->)]; [|exfalso; cbn in Hr; subst r; eapply Hne'; eauto].
  cbn [bind] in Hr. destruct (HP a k st Ha Ec Hruns Hdn) as ((Hc & vk & Hh) & Hp).
  destruct (update_back E CO fs (s_assign st) vk init val Hh Hi) as (a' & Eb & Ha'). exists a', vk, (s_cost st), (s_res st), k. split; [congruence|]. split; auto. split.
  - rewrite <- Hc. apply (cost_values E fs g WP Eg a' (s_assign st) vk); auto. apply holds_assigns; auto.
  - split; auto. rewrite <- (plain_size E fs (s_assign st) vk LP CO Hh). auto.
Qed.
End Solve.

Lemma method_total sigma F lin q : linear_method sigma F lin q -> total_solver lin.
Proof. intros [|tol t _ _]; [apply cholmod_total | apply cg_total]. Qed.

Lemma halt_solves : forall (E : env R) fs g, linear_problem E fs -> well_posed E fs -> graph_make E fs = Ok g -> every_column E fs g ->
  exists sigma F, 0 < sigma <= F /\ forall lin q, linear_method sigma F lin q -> (forall l, 0 <= l -> 0 < q l <= 1) /\
  forall init val c0 r0 z valz cz rz, assigns E fs init val -> compute_cost E g init = Ok (c0, r0) -> is_minimum E fs g z valz cz rz ->
  (forall cfg fuel, (iteration_cap (max_iterations cfg) <= fuel)%nat -> 0 <= parameter_tolerance cfg < 1 ->
     exists a' val' c r k, gn_solve E fuel cfg lin g init = Some (Ok a') /\ assigns E fs a' val' /\ compute_cost E g a' = Ok (c, r) /\
       (1 <= k <= iteration_cap (max_iterations cfg))%nat /\ stop_reason cfg sigma (q 0) cz c (size2 fs val') k) /\
  (forall cfg fuel, (iteration_cap (max_iterations (lm_term cfg)) <= fuel)%nat -> 0 <= parameter_tolerance (lm_term cfg) < 1 ->
     0 <= lambda_initial cfg -> 1 <= lambda_factor cfg -> 0 <= lambda_min cfg -> lm_quality_min cfg <= 1 ->
     exists a' val' c r k, lm_solve E fuel cfg lin g init = Some (Ok a') /\ assigns E fs a' val' /\ compute_cost E g a' = Ok (c, r) /\
       (1 <= k <= iteration_cap (max_iterations (lm_term cfg)))%nat /\ stop_reason (lm_term cfg) sigma (q (lambda_initial cfg)) cz c (size2 fs val') k) /\
  (forall cfg fuel theta, (iteration_cap (max_iterations (dl_term cfg)) <= fuel)%nat -> 0 <= parameter_tolerance (dl_term cfg) < 1 ->
     0 < radius_initial cfg -> dl_quality_min cfg <= 1 -> 0 < theta <= q 0 -> theta * theta * (c0 - cz) <= sigma * (radius_initial cfg * radius_initial cfg) ->
     exists a' val' c r k, dl_solve E fuel cfg lin g init = Some (Ok a') /\ assigns E fs a' val' /\ compute_cost E g a' = Ok (c, r) /\
       (1 <= k <= iteration_cap (max_iterations (dl_term cfg)))%nat /\ stop_reason (dl_term cfg) sigma theta cz c (size2 fs val') k).
Proof.
  intros E fs g LP WP Eg Hev. destruct (bounds_exist E fs g LP WP Eg Hev) as (A & sigma & F & (H1 & H2 & H3) & Hcol & Hsig & HFA & HFD & Hbb). exists sigma, F. split; auto.
  intros lin q HM. split; [apply (method_share sigma F lin q Hsig HM)|].
  intros init val c0 r0 z valz cz rz Hi Ec Hz. pose proof (method_total _ _ _ _ HM) as Hlin.
  destruct (posed_graph E fs WP) as (Hne & _ & Hrd & Hpd). pose proof WP as [CO Hok Hws _ _]. destruct (made E fs g Hok Eg) as (Hg & _).
  destruct (to_held E fs g WP Eg z valz cz rz Hz) as (z' & Hz' & Ez' & Hmin).
  split; [|split].
  - intros cfg fuel Hfu Hp. apply (solve_stops E fs g LP WP Eg lin Hlin init val c0 r0 Hi Ec (fun k c x2 => stop_reason cfg sigma (q 0) cz c x2 k) _ _ _ _ fuel (solver_gn E lin cfg)).
    + destruct (solvers_terminate E g init lin fuel) as (Hx & _). auto.
    + intros a k st Ha Ea Hr Hd. destruct (run_inv _ (fresh E fs g) (Halts sigma cz cfg (q 0)) (gn_halts E fs g LP CO Hok Hg Hne Hrd Hws A H1 H2 H3 F sigma HFA HFD Hcol Hsig Hbb z' valz cz rz Hz' Ez' Hmin lin q HM cfg Hp) k _ _ Hr (fresh_of E fs g a val c0 r0 _ Ha Ea) eq_refl) as (R1 & R2 & R3).
      split; auto. specialize (R3 Hd). unfold Halts in R3. rewrite R2 in R3. exact R3.
  - intros cfg fuel Hfu Hp L1 L2 L3 L4. apply (solve_stops E fs g LP WP Eg lin Hlin init val c0 r0 Hi Ec (fun k c x2 => stop_reason (lm_term cfg) sigma (q (lambda_initial cfg)) cz c x2 k) _ _ _ _ fuel (solver_lm E lin cfg)).
    + destruct (solvers_terminate E g init lin fuel) as (_ & Hx & _). auto.
    + intros a k st Ha Ea Hr Hd. destruct (run_inv _ (lm_inv E fs g cz (lambda_initial cfg)) (Halts sigma cz (lm_term cfg) (q (lambda_initial cfg))) (lm_halts E fs g LP CO Hok Hg Hne Hrd Hws A H1 H2 H3 F sigma HFA HFD Hcol Hsig Hbb z' valz cz rz Hz' Ez' Hmin lin q HM cfg (lambda_initial cfg) Hp L2 L3 L4 L1) k _ _ Hr) as ((R1 & _) & R2 & R3); auto.
      { split; [exact (fresh_of E fs g a val c0 r0 _ Ha Ea) | cbn [s_extra]; split; [auto | right; lra]]. }
      split; auto. specialize (R3 Hd). unfold Halts in R3. rewrite R2 in R3. exact R3.
  - intros cfg fuel th Hfu Hp L1 L2 L3 L4. apply (solve_stops E fs g LP WP Eg lin Hlin init val c0 r0 Hi Ec (fun k c x2 => stop_reason (dl_term cfg) sigma th cz c x2 k) _ _ _ _ fuel (solver_dl E lin cfg)).
    + destruct (solvers_terminate E g init lin fuel) as (_ & _ & Hx). auto.
    + intros a k st Ha Ea Hr Hd. destruct (run_inv _ (dl_inv E fs g sigma cz (radius_initial cfg) th) (Halts sigma cz (dl_term cfg) th) (dl_halts E fs g LP CO Hok Hg Hne Hrd Hws A H1 H2 H3 F sigma HFA HFD Hcol Hsig Hbb z' valz cz rz Hz' Ez' Hmin lin q HM cfg (radius_initial cfg) th Hp L2 L1 L3) k _ _ Hr) as ((R1 & _) & R2 & R3); auto.
      { split; [exact (fresh_of E fs g a val c0 r0 _ Ha Ea) | cbn [s_extra s_cost]; split; [auto | split; [right; lra | auto]]]. }
      split; auto. specialize (R3 Hd). unfold Halts in R3. rewrite R2 in R3. exact R3.
Qed.

Lemma small_tolerance cfg sigma q cz c x2 k eps : 0 < q <= 1 -> 0 < eps -> 0 <= cost_tolerance cfg <= Rmin (q / 2) (eps * q / 2) -> parameter_tolerance cfg = 0 -> (max_iterations cfg <= gradient_start cfg)%Z -> 0 <= cz ->
  stop_reason cfg sigma q cz c x2 k -> (max_iterations cfg <= Z.of_nat k)%Z \/ c <= (1 + eps) * cz.
Proof.
  intros Hq He Ht Hp Hgs Hcz [H|[H|[H|H]]]; [left; auto | left; lia | |].
  - right. pose proof (Rmin_l (q / 2) (eps * q / 2)). pose proof (Rmin_r (q / 2) (eps * q / 2)). set (tol := cost_tolerance cfg) in *.
    destruct (Rle_lt_dec c cz) as [Hc|Hc]; [assert (0 <= eps * cz) by (apply Rmult_le_pos; lra); lra|].
    assert (M1 : q / 2 * (c - cz) <= (q - tol) * (c - cz)) by (apply Rmult_le_compat_r; lra).
    assert (M2 : (1 - q) * tol * cz <= eps * q / 2 * cz) by (apply Rmult_le_compat_r; auto; apply Rle_trans with (1 * tol); [apply Rmult_le_compat_r; lra | lra]).
    assert (M3 : q / 2 * (c - cz) <= q / 2 * (eps * cz)) by lra. apply Rmult_le_reg_l in M3; lra.
  - right. rewrite Hp in H. replace ((1 - q) * sigma * Rsqr ((sqrt x2 + 0) * 0 / (1 - 0))) with 0 in H by (unfold Rsqr; field).
    assert (Hqq : 0 < q * q) by (apply Rmult_lt_0_compat; lra). assert (c - cz <= 0) by (apply (Rmult_le_reg_l (q * q)); auto; lra). assert (0 <= eps * cz) by (apply Rmult_le_pos; lra). lra.
Qed.
Lemma minimum_nonneg E fs g z valz cz rz : is_minimum E fs g z valz cz rz -> 0 <= cz.
Proof. intros (_ & Ez & _). unfold compute_cost in Ez. apply bind_ok in Ez. destruct Ez as (r & _ & Er). injection Er as <- <-. apply sumsq_nonneg. Qed.

Lemma halt_accuracy : forall (E : env R) fs g, linear_problem E fs -> well_posed E fs -> graph_make E fs = Ok g -> every_column E fs g ->
  forall lin, lin = cholmod_solve \/ (exists tol t, lin = cg_solve tol /\ (forall i, Rabs (tol i) <= t) /\ t < 1) ->
  forall lambda eps, 0 <= lambda -> 0 < eps -> exists delta, 0 < delta /\
  forall init val c0 r0 z valz cz rz, assigns E fs init val -> compute_cost E g init = Ok (c0, r0) -> is_minimum E fs g z valz cz rz ->
  (forall cfg fuel, (iteration_cap (max_iterations cfg) <= fuel)%nat -> parameter_tolerance cfg = 0 -> (max_iterations cfg <= gradient_start cfg)%Z -> 0 <= cost_tolerance cfg <= delta ->
     exists a' val' c r k, gn_solve E fuel cfg lin g init = Some (Ok a') /\ assigns E fs a' val' /\ compute_cost E g a' = Ok (c, r) /\
       (1 <= k <= iteration_cap (max_iterations cfg))%nat /\ ((max_iterations cfg <= Z.of_nat k)%Z \/ c <= (1 + eps) * cz)) /\
  (forall cfg fuel, (iteration_cap (max_iterations (lm_term cfg)) <= fuel)%nat -> parameter_tolerance (lm_term cfg) = 0 -> (max_iterations (lm_term cfg) <= gradient_start (lm_term cfg))%Z ->
     0 <= cost_tolerance (lm_term cfg) <= delta -> 0 <= lambda_initial cfg <= lambda -> 1 <= lambda_factor cfg -> 0 <= lambda_min cfg -> lm_quality_min cfg <= 1 ->
     exists a' val' c r k, lm_solve E fuel cfg lin g init = Some (Ok a') /\ assigns E fs a' val' /\ compute_cost E g a' = Ok (c, r) /\
       (1 <= k <= iteration_cap (max_iterations (lm_term cfg)))%nat /\ ((max_iterations (lm_term cfg) <= Z.of_nat k)%Z \/ c <= (1 + eps) * cz)).
Proof.
  intros E fs g LP WP Eg Hev lin Hlin lambda eps Hl He. destruct (halt_solves E fs g LP WP Eg Hev) as (sigma & F & Hs & HS).
  assert (HM : exists q, linear_method sigma F lin q). { destruct Hlin as [->|(tol & t & -> & Ht & Ht1)]; eexists; [apply method_cholmod | eapply method_cg; eauto]. }
  destruct HM as (q & HM). destruct (HS lin q HM) as (Hq & Hsol). destruct (method_share sigma F lin q Hs HM) as (_ & Hmono & _).
  pose proof (Hq lambda Hl) as Hql. assert (Hd : 0 < Rmin (q lambda / 2) (eps * q lambda / 2)).
  { apply Rmin_glb_lt; [lra|]. assert (0 < eps * q lambda) by (apply Rmult_lt_0_compat; lra). lra. }
  exists (Rmin (q lambda / 2) (eps * q lambda / 2)). split; auto.
  assert (Hdm : forall l, 0 <= l <= lambda -> Rmin (q lambda / 2) (eps * q lambda / 2) <= Rmin (q l / 2) (eps * q l / 2)).
  { intros l Hll. specialize (Hmono l lambda Hll). apply Rmin_glb; [eapply Rle_trans; [apply Rmin_l | lra] | eapply Rle_trans; [apply Rmin_r|]]. assert (eps * q lambda <= eps * q l) by (apply Rmult_le_compat_l; lra). lra. }
  intros init val c0 r0 z valz cz rz Hi Ec Hz. pose proof (minimum_nonneg _ _ _ _ _ _ _ Hz) as Hcz. destruct (Hsol init val c0 r0 z valz cz rz Hi Ec Hz) as (Hgn & Hlm & _). split.
  - intros cfg fuel Hfu Hp Hgs Ht. destruct (Hgn cfg fuel Hfu ltac:(lra)) as (a' & val' & c & r & k & R1 & R2 & R3 & R4 & R5). exists a', val', c, r, k. do 4 (split; auto).
    apply (small_tolerance cfg sigma (q 0) cz c (size2 fs val') k eps); auto; [apply Hq; lra|]. split; [lra|]. eapply Rle_trans; [apply Ht | apply Hdm; lra].
  - intros cfg fuel Hfu Hp Hgs Ht L1 L2 L3 L4. destruct (Hlm cfg fuel Hfu ltac:(lra) ltac:(lra) L2 L3 L4) as (a' & val' & c & r & k & R1 & R2 & R3 & R4 & R5). exists a', val', c, r, k. do 4 (split; auto).
    apply (small_tolerance (lm_term cfg) sigma (q (lambda_initial cfg)) cz c (size2 fs val') k eps); auto; [apply Hq; lra|]. split; [lra|]. eapply Rle_trans; [apply Ht | apply Hdm; lra].
Qed.

(* ---- a single faint measurement: every solver stops at once, next to where it started ---- *)
Definition faint : list (factor R) := [mkFactor 21 [vx] (DiagGaussian (mkArr [1%nat] [1 / 1000000])) [leaf1 [1]]].
Ltac faint_test := match goal with |- context [Rltb ?a ?b] => let H := fresh in assert (H : Rltb a b = true);
  [apply Rltb_ok; match goal with |- context [Rabs ?x / _] => assert (- (1/1000000000000000000) <= x <= 0) by (split; rat); rewrite (Rabs_left1 x) by lra end; rat | rewrite H; clear H] end.
Ltac faint_accept := match goal with |- context [Rleb ?a ?b] => let H := fresh in assert (H : Rleb a b = true); [apply Rleb_ok; rat | rewrite H; clear H] end.
Lemma faint_gn : exists a, gn_solve exSE 1 (term_default 100) cholmod_solve (graph_of faint) (scalars [vx] [0]) = Some (Ok a) /\ exists z, a = scalars [vx] [z] /\ 0 < z < 1/10000.
Proof. eexists. split; [comp; faint_test; reflexivity|]. eexists. split; [reflexivity|]. split; rat. Qed.
Lemma faint_lm : exists a, lm_solve exSE 1 (lm_default 100) cholmod_solve (graph_of faint) (scalars [vx] [0]) = Some (Ok a) /\ exists z, a = scalars [vx] [z] /\ 0 < z < 1/10000.
Proof. eexists. split; [comp; faint_accept; faint_test; reflexivity|]. eexists. split; [reflexivity|]. split; rat. Qed.
Lemma faint_dl : exists a, dl_solve exSE 1 (dl_default 100) cholmod_solve (graph_of faint) (scalars [vx] [0]) = Some (Ok a) /\ exists z, a = scalars [vx] [z] /\ 0 < z < 1/10000.
Proof.
  eexists. split.
  { comp. match goal with |- context [Rleb ?a ?b] => assert (H : Rleb a b = true) end.
    { apply Rleb_ok. match goal with |- sqrt (?x * ?x + 0) <= _ => rewrite (Rplus_0_r (x * x)), sqrt_square by rat end. rat. }
    rewrite H; clear H. faint_accept. faint_test. reflexivity. }
  eexists. split; [reflexivity|]. split; rat.
Qed.
Lemma faint_linear : linear_problem exSE faint.
Proof.
  split.
  - intros v [<-|[]]; split; reflexivity.
  - intros f [<-|[]]; exact I.
  - intros f val val' [<-|[]] _ _; reflexivity.
  - intros f val val' [<-|[]] Hl Hl'; unfold residual_at, jacobians_at, jacobian_times_change; cbn [map f_vars anchor zipw jacobians_at e_jac exLE exSE anonymize fd_cls f_cls fold_right].
    destruct (scalar_shape _ (Hl vx (or_introl eq_refl))) as (r & ->). destruct (scalar_shape _ (Hl' vx (or_introl eq_refl))) as (r' & ->).
    comp. unfold Rlit. f_equal. lra.
Qed.
Lemma faint_posed : well_posed exSE faint.
Proof.
  split.
  - intros [|[|t]]; repeat constructor.
  - intros f [<-|[]]. split; [split; [reflexivity | exists 1%nat; reflexivity] | repeat constructor].
  - split.
    + intros val f Hv [<-|[]]. destruct (scalar_shape _ (Hv vx (or_introl eq_refl))) as (x & Ex). unfold residual_shape_ok, residual_at. simpl map. rewrite Ex. reflexivity.
    + intros val f Hv [<-|[]]. destruct (scalar_shape _ (Hv vx (or_introl eq_refl))) as (x & Ex). unfold jacobian_shape_ok, jacobians_at. simpl map. rewrite Ex. repeat constructor.
    + intros v x d [<-|[]] Hx' Hd. destruct (scalar_shape x Hx') as (r & ->).
      destruct d as [|e [|? ?]]; try discriminate Hd; eexists; (split; [reflexivity | split; repeat constructor]).
  - eexists. split; [left; reflexivity | discriminate].
  - exists vx. split; [left; auto | discriminate].
Qed.
Lemma faint_assigns x : assigns exSE faint (scalars [vx] [x]) (fun _ => leaf1 [x]).
Proof. exists [vx]. split; [split; [repeat constructor; simpl; tauto | split; reflexivity]|]. split; [intros v; reflexivity|]. intros v [<-|[]]. reflexivity. Qed.
Lemma faint_cost x : exists r, compute_cost exSE (graph_of faint) (scalars [vx] [x]) = Ok ((1 / 1000000 * (x - 1)) * (1 / 1000000 * (x - 1)), r).
Proof. eexists. comp. rewrite Rplus_0_r. reflexivity. Qed.
Lemma faint_column : every_column exSE faint (graph_of faint).
Proof.
  exists (scalars [vx] [0]), (fun _ => leaf1 [0]). do 3 eexists. split; [apply faint_assigns|]. split; [repeat split; reflexivity|]. split; [comp; reflexivity|]. split; [comp; reflexivity|].
  intros j Hj. assert (Hj' : (j < 1)%nat) by exact Hj. destruct j; [|lia]. exists 0%nat. eexists. split; [left; reflexivity|]. unfold Rlit. lra.
Qed.
Lemma zero_minimum E fs g z valz rz : assigns E fs z valz -> compute_cost E g z = Ok (0, rz) -> is_minimum E fs g z valz 0 rz.
Proof. intros H1 H2. split; auto. split; auto. intros b valb cb rb _ Eb. unfold compute_cost in Eb. apply bind_ok in Eb. destruct Eb as (r & _ & Eb). injection Eb as <- <-. apply sumsq_nonneg. Qed.

Lemma default_stops : exists (E : env R) fs g init val c0 r0 z valz rz, linear_problem E fs /\ well_posed E fs /\ graph_make E fs = Ok g /\ every_column E fs g /\
  assigns E fs init val /\ compute_cost E g init = Ok (c0, r0) /\ 0 < c0 /\ is_minimum E fs g z valz 0 rz /\
  (exists a' c r, gn_solve E 1 (term_default 100) cholmod_solve g init = Some (Ok a') /\ compute_cost E g a' = Ok (c, r) /\ 999 / 1000 * c0 < c < c0) /\
  (exists a' c r, lm_solve E 1 (lm_default 100) cholmod_solve g init = Some (Ok a') /\ compute_cost E g a' = Ok (c, r) /\ 999 / 1000 * c0 < c < c0) /\
  (exists a' c r, dl_solve E 1 (dl_default 100) cholmod_solve g init = Some (Ok a') /\ compute_cost E g a' = Ok (c, r) /\ 999 / 1000 * c0 < c < c0).
Proof.
  destruct (faint_cost 0) as (r0 & E0). destruct (faint_cost 1) as (rz & Ez).
  exists exSE, faint, (graph_of faint), (scalars [vx] [0]), (fun _ => leaf1 [0]), (1 / 1000000 * (0 - 1) * (1 / 1000000 * (0 - 1))), r0, (scalars [vx] [1]), (fun _ => leaf1 [1]), rz.
  split; [exact faint_linear|]. split; [exact faint_posed|]. split; [reflexivity|]. split; [exact faint_column|]. split; [apply faint_assigns|]. split; [exact E0|]. split; [lra|].
  split. { apply zero_minimum; [apply faint_assigns|]. rewrite Ez. do 2 f_equal. lra. }
  assert (Hz : forall z, 0 < z < 1 / 10000 -> 999 / 1000 * (1 / 1000000 * (0 - 1) * (1 / 1000000 * (0 - 1))) < 1 / 1000000 * (z - 1) * (1 / 1000000 * (z - 1)) < 1 / 1000000 * (0 - 1) * (1 / 1000000 * (0 - 1))).
  { intros z Hz. assert (H1 : 999 / 1000 < (1 - z) * (1 - z) < 1) by nra. lra. }
  split; [|split]; [destruct faint_gn as (a & Ha & z & -> & Hzz) | destruct faint_lm as (a & Ha & z & -> & Hzz) | destruct faint_dl as (a & Ha & z & -> & Hzz)];
    (destruct (faint_cost z) as (r & Er); do 3 eexists; split; [exact Ha|]; split; [exact Er | auto]).
Qed.

(* the gradient test alone: it looks at the largest component only (C38) *)
Definition gradient_only : lm_cfg R := mkLm (mkTerm 100 0 (1 / 1000000000) 0 0) 1000 2 (1 / 100000) 10000000000 (1 / 1000).
Lemma anchor_gradient : exists a, lm_solve exSE 1 gradient_only cholmod_solve (graph_of one_anchor) (scalars [vx] [0]) = Some (Ok a) /\ exists z, a = scalars [vx] [z] /\ 0 < z < 1/1000.
Proof.
  eexists. split.
  { comp. faint_accept. match goal with |- context [if Rltb ?a ?b then true else Rltb ?c ?d] => assert (H : (if Rltb a b then true else Rltb c d) = true) end.
    { match goal with |- (if ?b then _ else _) = _ => destruct b end; auto. apply Rltb_ok. rat. }
    rewrite H. reflexivity. }
  eexists. split; [reflexivity|]. split; rat.
Qed.
Lemma gradient_stops : exists (E : env R) fs g init val c0 r0 z valz rz cfg a' c r, linear_problem E fs /\ well_posed E fs /\ graph_make E fs = Ok g /\ every_column E fs g /\
  assigns E fs init val /\ compute_cost E g init = Ok (c0, r0) /\ is_minimum E fs g z valz 0 rz /\
  cost_tolerance (lm_term cfg) = 0 /\ parameter_tolerance (lm_term cfg) = 0 /\ max_iterations (lm_term cfg) = 100%Z /\
  lm_solve E 1 cfg cholmod_solve g init = Some (Ok a') /\ compute_cost E g a' = Ok (c, r) /\ 99 / 100 * c0 < c.
Proof.
  assert (Hc : forall x, exists r, compute_cost exSE (graph_of one_anchor) (scalars [vx] [x]) = Ok ((x - 1) * (x - 1), r)) by (intros x; eexists; comp; f_equal; f_equal; unfold Rlit; lra).
  destruct anchor_gradient as (a & Ha & z & -> & Hz). destruct (Hc 0) as (r0 & E0). destruct (Hc 1) as (rz & Ez). destruct (Hc z) as (r & Er).
  exists exSE, one_anchor, (graph_of one_anchor), (scalars [vx] [0]), (fun _ => leaf1 [0]), ((0 - 1) * (0 - 1)), r0, (scalars [vx] [1]), (fun _ => leaf1 [1]), rz, gradient_only, (scalars [vx] [z]), ((z - 1) * (z - 1)), r.
  split; [exact anchor_linear|]. split; [exact anchor_posed|]. split; [reflexivity|]. split.
  { exists (scalars [vx] [0]), (fun _ => leaf1 [0]). do 3 eexists. split; [apply scalar_assigns|]. split; [repeat split; reflexivity|]. split; [comp; reflexivity|]. split; [comp; reflexivity|].
    intros j Hj. assert (Hj' : (j < 1)%nat) by exact Hj. destruct j; [|lia]. exists 0%nat. eexists. split; [left; reflexivity|]. unfold Rlit. lra. }
  split; [apply scalar_assigns|]. split; [exact E0|]. split. { apply zero_minimum; [apply scalar_assigns|]. rewrite Ez. do 2 f_equal. lra. }
  do 3 (split; [reflexivity|]). split; [exact Ha|]. split; [exact Er|]. nra.
Qed.

(* the chain of C95 with the default settings *)
Lemma halt_example : exists g z valz cz rz c0 r0, linear_problem exLE chain_fs /\ well_posed exLE chain_fs /\ graph_make exLE chain_fs = Ok g /\ every_column exLE chain_fs g /\
  assigns exLE chain_fs (scalars [vx; vy] [0; 0]) (PExNear.two_of 0 0) /\ compute_cost exLE g (scalars [vx; vy] [0; 0]) = Ok (c0, r0) /\ c0 = 66 /\ is_minimum exLE chain_fs g z valz cz rz /\ cz = 64 / 9 /\
  0 <= parameter_tolerance (lm_term (lm_default (T := R) 100)) < 1 /\ 0 <= lambda_initial (lm_default (T := R) 100) /\ 1 <= lambda_factor (lm_default (T := R) 100) /\
  0 <= lambda_min (lm_default (T := R) 100) /\ lm_quality_min (lm_default (T := R) 100) <= 1 /\ 0 < radius_initial (dl_default (T := R) 100) /\ dl_quality_min (dl_default (T := R) 100) <= 1.
Proof.
  destruct chain_rates as (g & z & valz & cz & rz & c0 & r0 & H1 & H2 & H3 & H4 & H5 & _ & H6 & H7 & H8 & H9 & _). exists g, z, valz, cz, rz, c0, r0. split; [exact H1|]. split; [exact H2|]. split; [exact H3|]. split; [exact H4|]. split; [exact H5|]. split; [exact H6|]. split; [exact H7|]. split; [exact H8|]. split; [exact H9|].
  cbn. unfold Rlit. repeat split; lra.
Qed.
