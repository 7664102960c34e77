(* One iteration of each solver on linear least-squares problems, for any linear solver that takes a fixed part of the gradient. *)
From Coq Require Import List Arith Bool ZArith Lia Permutation Reals Lra Psatz.
From Verif Require Import Num NumR Py Arr MLayout MAssign MNoise MSparse MFactor MGraph MLinear MSolver SpecLayout SpecTree SpecAssign SpecGraph SpecSparse SpecDeriv SpecSolver SpecOrder SpecInv SpecLin SpecCgLin SpecTrCg SpecHalt.
From Verif Require Import PBase PLayout PAssign PAssign2 PStack PGraph PGraph2 PGraph3 PGraph4 PVec PSparse PLinear PCg PCgConv PJac PGraph5 PLayout2 POrder PHold PExGraph PSolver PSolver2 PInv PTotal PSolverR PDescent PLin PLinDl PLinCg PNear PLinTr.
Import ListNotations.
Local Open Scope R_scope.

(* the damped normal equations *)
Lemma exact_lower (A : coo R) beta F c x : coo_ok A -> 0 < beta -> 0 < F ->
  (forall y, length y = snd (m_shape A) -> sumsq (mapply A y) <= F * sumsq y) ->
  length c = snd (m_shape A) -> normal_ok A beta c x -> sumsq c <= (F + beta) * vdot x c /\ sumsq (mapply A x) <= vdot x c.
Proof.
  intros HA Hb HF H1 Hc Hn. assert (Hx : length x = snd (m_shape A)) by apply Hn. pose proof (proj1 (normal_weak A beta HA c x Hc Hx) Hn) as Hdot.
  pose proof (Hdot x Hx) as E1. pose proof (Hdot c Hc) as E2. rewrite <- !sumsq_dot in E1. rewrite <- sumsq_dot in E2. pose proof (sumsq_nonneg x) as X0. pose proof (Rmult_le_pos beta _ (Rlt_le _ _ Hb) X0) as X1. split; [|lra].
  set (K := F + beta). assert (HK : 0 < K) by (unfold K; lra). set (s := / K). assert (HsK : s * K = 1) by (unfold s; field; lra). assert (Hs0 : 0 < s) by (apply Rinv_0_lt_compat; auto).
  assert (LA : forall y, length (mapply A y) = fst (m_shape A)) by (intros; apply mapply_length).
  pose proof (sumsq_nonneg (vadd (mapply A x) (vscale (- s) (mapply A c)))) as P1. rewrite sumsq_add, sumsq_scale, vdot_scale_r in P1 by (rewrite vscale_length, !LA; auto).
  pose proof (sumsq_nonneg (vadd x (vscale (- s) c))) as P2. rewrite sumsq_add, sumsq_scale, vdot_scale_r in P2 by (rewrite vscale_length; congruence).
  rewrite (vdot_comm (mapply A c)) in E2. rewrite (vdot_comm c x) in E2.
  assert (P3 : 0 <= beta * (sumsq x + 2 * (- s * vdot x c) + - s * - s * sumsq c)) by (apply Rmult_le_pos; lra).
  specialize (H1 c Hc). assert (P4 : s * s * sumsq (mapply A c) <= s * s * (F * sumsq c)) by (apply Rmult_le_compat_l; [apply Rle_0_sqr | auto]).
  assert (P5 : s * s * (F * sumsq c) + s * s * (beta * sumsq c) = s * sumsq c). { replace (s * s * (F * sumsq c) + s * s * (beta * sumsq c)) with (s * (s * K) * sumsq c) by (unfold K; ring). rewrite HsK. ring. }
  assert (P6 : s * vdot (mapply A x) (mapply A c) + s * (beta * vdot x c) = s * sumsq c) by (rewrite <- Rmult_plus_distr_l; f_equal; auto).
  assert (P7 : 0 <= vdot x c - s * sumsq c) by lra.
  apply (Rmult_le_reg_l s); auto. replace (s * (K * vdot x c)) with (s * K * vdot x c) by ring. rewrite HsK. lra.
Qed.
Lemma part_bound (k : R) (x c : list R) : 0 < k -> length x = length c -> k * sumsq c <= vdot x c -> k * k * sumsq c <= sumsq x.
Proof.
  intros Hk Hl H. pose proof (sumsq_nonneg c) as C0. pose proof (sumsq_nonneg x) as X0. destruct C0 as [C0|C0]; [|rewrite <- C0; lra].
  pose proof (cauchy_schwarz x c Hl) as CS. apply (Rmult_le_reg_r (sumsq c)); auto. eapply Rle_trans; [|exact CS].
  replace (k * k * sumsq c * sumsq c) with (k * sumsq c * (k * sumsq c)) by ring. assert (0 <= k * sumsq c) by (apply Rmult_le_pos; lra). apply Rmult_le_compat; auto.
Qed.

Lemma plain_size E fs a val : linear_problem E fs -> classes_ok (e_cls E) -> holds E fs a val -> sumsq (as_storage a) = size2 fs val.
Proof.
  intros LP CO Ha. pose proof (pl_held_length E fs (lp_plain _ _ LP) CO _ _ Ha).
  rewrite sumsq_dot. rewrite (vdot_blocks (e_cls E) true (mentioned fs)); try apply mentioned_nodup; auto.
  unfold size2. transitivity (vsum (map (fun v => sumsq (ravel (val v))) (order (mentioned fs)))).
  - f_equal. apply map_ext_in. intros v Hv. apply (order_in (mentioned fs)) in Hv. rewrite sumsq_dot.
    change (make_layout (e_cls E) (mentioned fs) true) with (graph_layout E fs true). rewrite (pl_held_blocks E fs (lp_plain _ _ LP) CO a val) by auto. reflexivity.
  - apply vsum_perm, Permutation_map, order_perm.
Qed.

Section Lin.
Variable E : env R.
Let C := e_cls E.
Variable fs : list (factor R).
Variable g : graph R.
Hypothesis LP : linear_problem E fs.
Hypothesis CO : classes_ok C.
Hypothesis Hok : forall f, In f fs -> factor_ok f.
Hypothesis Hg : is_graph E fs g.
Hypothesis Hne : fs <> [].
Hypothesis Hrd : total residual_dim fs <> 0%nat.
Hypothesis Hws : well_shaped E fs.
Let L := graph_layout E fs true.
Let n := l_dim L.
Let m := total residual_dim fs.
Notation fresh := (fresh E fs g).
Variable A : coo R.
Hypothesis HA : coo_ok A.
Hypothesis Hsh : m_shape A = (m, n).
Hypothesis HJ : forall s, fresh s -> compute_whitened_residual_jacobian E g (s_assign s) (s_res s) = Ok A.
Notation ngrad := (ngrad A).
Notation fall := (fall A).

Lemma res_length' s : fresh s -> length (s_res s) = m.
Proof. apply (res_length E fs g CO Hok Hg Hne Hws). Qed.
Lemma ngrad_length' s : length (ngrad s) = n.
Proof. apply (ngrad_length E fs A Hsh). Qed.
Lemma ngrad_matmul' s b : fresh s -> matmul (transpose A) (vneg (s_res s)) = Ok b -> b = ngrad s.
Proof. intros Hf H. pose proof (res_length' s Hf) as Hm. rewrite matmul_mapply in H; [injection H as <-; auto | auto using transpose_ok | cbn; rewrite Hsh; unfold vneg; rewrite map_length; auto]. Qed.

(* the tests of the code, between a state and the next *)
Definition tested (cfg : term_cfg R) (s s' : sstate R) (d : list R) : Prop :=
  length (as_storage (s_assign s)) = length d /\ as_storage (s_assign s') = vadd (as_storage (s_assign s)) d /\
  (s_done s' = true ->
   (max_iterations cfg - 1 <= Z.of_nat (s_iter s))%Z \/ (gradient_start cfg <= Z.of_nat (s_iter s))%Z \/
   Rabs (s_cost s' - s_cost s) / s_cost s < cost_tolerance cfg \/
   sqrt (sumsq d) < (sqrt (sumsq (as_storage (s_assign s))) + parameter_tolerance cfg) * parameter_tolerance cfg).

Lemma tests_pass cfg s c d b conv (acc : bool) : check_convergence E cfg s c (mkAssign d (g_local_layout g)) b = Ok conv ->
  exceeded_max_iterations cfg s || (acc && conv) = true ->
  (max_iterations cfg - 1 <= Z.of_nat (s_iter s))%Z \/ (gradient_start cfg <= Z.of_nat (s_iter s))%Z \/
  Rabs (c - s_cost s) / s_cost s < cost_tolerance cfg \/ sqrt (sumsq d) < (sqrt (sumsq (as_storage (s_assign s))) + parameter_tolerance cfg) * parameter_tolerance cfg.
Proof.
  intros H Hd. apply orb_true_iff in Hd. destruct Hd as [Hd|Hd]; [left; apply Z.leb_le; exact Hd|]. apply andb_true_iff in Hd. destruct Hd as (_ & ->).
  destruct (convergence_meaning E _ _ _ _ _ _ H) as (a' & _ & Hm). destruct (proj1 Hm eq_refl) as [H1|[(H1 & _)|H1]]; auto.
Qed.

Lemma exact_trust' cfg qmin s s' A' d prop c r q conv : qmin <= 1 -> fresh s -> length d = n -> trust_step E g qmin s s' A' d prop c r q ->
  forall b, check_convergence E cfg s c (mkAssign d (g_local_layout g)) b = Ok conv -> s_done s' = (exceeded_max_iterations cfg s || (nleb qmin q && conv)) ->
  (0 < fall s d -> q = 1 /\ fresh s' /\ s_cost s' = s_cost s - fall s d /\ tested cfg s s' d) /\
  (d = vzero n -> fresh s' /\ s_cost s' = s_cost s).
Proof.
  intros Hq Hf Hd Ht b Hconv Hdone. destruct (exact_trust E fs g LP CO Hok Hg Hne Hrd Hws A HA Hsh HJ qmin s s' A' d prop c r q Hq Hf Hd Ht) as (T1 & T2). split; auto.
  intros Hp. destruct (T1 Hp) as (Hq1 & Hf' & Hc'). do 3 (split; auto). destruct Ht as [_ Er _ _ Hacc _ _ _].
  assert (Eacc : nleb qmin q = true) by (rewrite Hq1; rn; apply Rleb_ok; auto). destruct (Hacc Eacc) as (Es1 & Es2).
  destruct (moves E fs g LP CO Hok Hg Hne Hrd Hws A HA Hsh HJ s d Hf Hd) as (a2 & c2 & r2 & val2 & Er2 & _ & _ & _ & _ & Hst2).
  rewrite (ig_local _ _ _ Hg) in Er. fold C L in Er. change (e_cls E) with C in Er2. fold L in Er2. rewrite Er in Er2. injection Er2 as <-. split; [rewrite Hd; destruct Hf as (_ & val & Ha); apply (held_length E fs LP CO _ _ Ha)|]. split; [rewrite Es1; auto|].
  rewrite Es2. intros Hdn. rewrite Hdone in Hdn. eapply tests_pass; eauto.
Qed.

Variables (F : R) (lin : linear_solver (T := R)) (kappa : R -> R).
Hypothesis HF : 0 < F.
Hypothesis HFA : forall y, length y = snd (m_shape A) -> sumsq (mapply A y) <= F * sumsq y.
Hypothesis Hk : forall l, 0 <= l -> 0 < kappa l.
Hypothesis HkF : kappa 0 <= / F.
Hypothesis part : forall s lambd, fresh s -> 0 <= lambd ->
  exists x, lin A (ngrad s) lambd (s_iter s) = Ok x /\ length x = n /\
    kappa lambd * sumsq (ngrad s) <= vdot x (ngrad s) /\ sumsq (mapply A x) <= vdot x (ngrad s) /\ (ngrad s = vzero n -> x = vzero n).

Lemma grad_zero' s : sumsq (ngrad s) = 0 -> ngrad s = vzero n.
Proof. intros H. apply sumsq_zero in H. rewrite ngrad_length' in H. auto. Qed.
Lemma long_step s x l : 0 <= l -> length x = length (ngrad s) -> kappa l * sumsq (ngrad s) <= vdot x (ngrad s) -> kappa l * kappa l * sumsq (ngrad s) <= sumsq x.
Proof. intros Hl Hx H. apply part_bound; auto. Qed.

Lemma lm_stop cfg s s' : 1 <= lambda_factor cfg -> 0 <= lambda_min cfg -> lm_quality_min cfg <= 1 -> fresh s -> 0 <= s_extra s -> lm_step E cfg lin g s = Ok s' ->
  fresh s' /\ 0 <= s_extra s' /\ s_iter s' = S (s_iter s) /\
  ((sumsq (ngrad s) = 0 /\ s_cost s' = s_cost s) \/
   (s_extra s' = s_extra s / lambda_factor cfg /\ s_cost s' <= s_cost s - kappa (s_extra s) * sumsq (ngrad s) /\
    exists d, kappa (s_extra s) * kappa (s_extra s) * sumsq (ngrad s) <= sumsq d /\ tested (lm_term cfg) s s' d)).
Proof.
  intros Hfac Hmin Hq Hf Hl H. destruct (lm_tr E _ _ _ _ _ H) as (A' & b & x & prop & c & r & q & Ht & Eb & Ex & Eex & conv & Hconv & Hdone).
  pose proof Ht as [EA' _ _ _ _ _ _ Hit]. rewrite (HJ s Hf) in EA'. injection EA' as <-. apply (ngrad_matmul' s b Hf) in Eb. subst b.
  destruct (part s (s_extra s) Hf Hl) as (x' & Ex' & Hx & Hlow & Hle & Hz). rewrite Ex in Ex'. injection Ex' as <-.
  destruct (exact_trust' _ _ _ _ _ _ _ _ _ _ _ Hq Hf Hx Ht _ Hconv Hdone) as (T1 & T2).
  assert (Hlam : 0 <= s_extra s').
  { rewrite Eex. unfold lm_lambda. rn. destruct (Rleb (lm_quality_min cfg) q); [apply (PLin.shrink (s_extra s) (lambda_factor cfg)); auto|]. eapply Rle_trans; [exact Hmin | apply Rmax_l]. }
  destruct (sumsq_nonneg (ngrad s)) as [Hp|Hz0].
  - assert (Hpp : 0 < kappa (s_extra s) * sumsq (ngrad s)) by (apply Rmult_lt_0_compat; auto). assert (Hfall : 0 < fall s x) by (unfold PLinTr.fall; lra).
    destruct (T1 Hfall) as (Hq1 & Hf' & Hc' & Hte). split; [exact Hf'|]. split; [auto using Rlt_le|]. split; [lia|]. right. split; [|split].
    + rewrite Eex, Hq1. unfold lm_lambda. rn. rewrite (proj2 (Rleb_ok _ _) Hq). auto.
    + rewrite Hc'. unfold PLinTr.fall. lra.
    + exists x. split; auto. apply long_step; auto. rewrite ngrad_length'. auto.
  - symmetry in Hz0. destruct (T2 (Hz (grad_zero' s Hz0))) as (Hf' & Hc'). split; [exact Hf'|]. split; [auto using Rlt_le|]. split; [lia|]. left; auto.
Qed.

Lemma dl_stop cfg s s' : dl_quality_min cfg <= 1 -> fresh s -> 0 < s_extra s -> dl_step E cfg lin g s = Ok s' ->
  fresh s' /\ 0 < s_extra s' /\ s_iter s' = S (s_iter s) /\
  ((sumsq (ngrad s) = 0 /\ s_cost s' = s_cost s) \/
   (s_extra s <= s_extra s' /\ s_cost s' <= s_cost s - Rmin (s_extra s * vnorm (ngrad s)) (kappa 0 * sumsq (ngrad s)) /\
    exists d, (kappa 0 * kappa 0 * sumsq (ngrad s) <= sumsq d \/ sumsq d = s_extra s * s_extra s) /\ tested (dl_term cfg) s s' d)).
Proof.
  intros Hq Hf Hx H. destruct (dl_tr E _ _ _ _ _ H) as (A' & b & gn & Asd & d & prop & c & r & q & Ht & Eb & Egn & Easd & Ed & Eex & conv & Hconv & Hdone).
  pose proof Ht as [EA' _ _ _ _ _ _ Hit]. rewrite (HJ s Hf) in EA'. injection EA' as <-. apply (ngrad_matmul' s b Hf) in Eb. subst b.
  destruct (part s 0 Hf ltac:(lra)) as (x' & Ex' & Hgn & Hlow & Hle & Hz). change (n0 (T := R)) with 0 in Egn. rewrite Egn in Ex'. injection Ex' as <-.
  pose proof (ngrad_length' s) as Hlg. set (gg := ngrad s) in *.
  rewrite matmul_mapply in Easd by (auto; rewrite ?Hsh; auto). injection Easd as <-.
  assert (Hld : length d = n) by (rewrite Ed; apply dogleg_length; auto).
  destruct (exact_trust' _ _ _ _ _ _ _ _ _ _ _ Hq Hf Hld Ht _ Hconv Hdone) as (T1 & T2).
  assert (Hrad : 0 < s_extra s') by (rewrite Eex; apply (dogleg_radius_ok (s_extra s) q d Hx)).
  destruct (sumsq_nonneg gg) as [Hp|Hz0].
  - set (kk := kappa 0 * sumsq gg).
    assert (Hk0 : 0 < kk) by (unfold kk; apply Rmult_lt_0_compat; auto; apply Hk; lra).
    assert (Hkg : kk <= vdot gn gg) by exact Hlow.
    destruct (vnorm_sq gg) as (G0 & G1). assert (G2 : 0 < vnorm gg) by nra.
    assert (Hrg : 0 < s_extra s * vnorm gg) by (apply Rmult_lt_0_compat; auto).
    assert (Hdec : Rmin (s_extra s * vnorm gg) kk <= fall s d).
    { unfold PLinTr.fall. fold gg. pose proof (Rmin_l (s_extra s * vnorm gg) kk) as M1. pose proof (Rmin_r (s_extra s * vnorm gg) kk) as M2.
      assert (Hnz : gg <> vzero n). { intros Hzz. rewrite Hzz, sumsq_dot, vdot_zero_l in Hp. lra. }
      pose proof (res_length' s Hf) as Hm. assert (Hneg : length (vneg (s_res s)) = fst (m_shape A)) by (unfold vneg; rewrite map_length, Hsh; auto).
      destruct (steepest_defined A (vneg (s_res s)) HA Hneg) as (Hpp & _); [rewrite Hsh; exact Hnz|]. change (mapply (transpose A) (vneg (s_res s))) with gg in Hpp.
      destruct (dogleg_step_ok gg (mapply A gg) gn (s_extra s) Hx ltac:(congruence) ltac:(left; lra)) as (_ & C1 & _ & C2 & C3). rewrite <- Ed in C1, C2, C3.
      set (p := sumsq (mapply A gg)) in *. set (alpha := sumsq gg / p) in *. set (a := vscale alpha gg) in *.
      assert (Hal : 0 < alpha) by (apply Rdiv_lt_0_compat; auto). assert (Hap : alpha * p = sumsq gg) by (unfold alpha; field; lra).
      assert (Na : vnorm a = alpha * vnorm gg). { apply vnorm_eq; [apply Rmult_le_pos; lra|]. unfold a. rewrite sumsq_scale, <- G1. ring. }
      assert (Hla : length a = n) by (unfold a; rewrite vscale_length; auto).
      assert (HpF : p <= F * sumsq gg) by (apply HFA; rewrite Hsh; auto).
      assert (LA : forall v, length (mapply A v) = m) by (intros v; rewrite mapply_length, Hsh; auto).
      destruct (Rle_lt_dec (vnorm gn) (s_extra s)) as [Hc|Hc]; [rewrite (C1 Hc); lra|].
      destruct (Rle_lt_dec (s_extra s) (vnorm a)) as [Hc2|Hc2].
      - rewrite (C2 Hc Hc2). assert (Ed' : vscale (s_extra s / vnorm a) a = vscale (s_extra s / vnorm gg) gg).
        { apply (nth_ext' _ _ 0); [unfold a; rewrite !vscale_length; auto|]. intros i _. rewrite Na. unfold a. rewrite !nth_vscale. field. lra. }
        rewrite Ed', vdot_scale_l, <- sumsq_dot, mapply_scale, sumsq_scale by (rewrite ?Hsh; auto). fold p.
        set (u := s_extra s / vnorm gg). assert (Htg : u * vnorm gg = s_extra s) by (unfold u; field; lra).
        assert (Hu : 0 < u) by (apply Rdiv_lt_0_compat; auto).
        assert (Hta : u <= alpha). { apply (Rmult_le_reg_r (vnorm gg)); auto. rewrite Htg, <- Na. auto. }
        assert (Htp : u * p <= sumsq gg). { rewrite <- Hap. apply Rmult_le_compat_r; lra. }
        assert (Htt : u * (u * p) <= u * sumsq gg) by (apply Rmult_le_compat_l; lra).
        assert (Hrg' : s_extra s * vnorm gg = u * sumsq gg) by (rewrite <- Htg, <- G1; ring). lra.
      - destruct (C3 Hc Hc2) as (bt & Hbt & Ed' & _). rewrite Ed'.
        set (w := vsub gn a) in *. assert (Hlw : length w = n) by (unfold w; rewrite vsub_length; congruence).
        assert (Hag : vdot a gg = alpha * sumsq gg) by (unfold a; rewrite vdot_scale_l, <- sumsq_dot; auto).
        assert (HAa : sumsq (mapply A a) = alpha * sumsq gg). { unfold a. rewrite mapply_scale, sumsq_scale by (rewrite ?Hsh; auto). fold p. rewrite <- Hap. ring. }
        assert (Hkk : kk <= alpha * sumsq gg).
        { unfold kk. apply Rmult_le_compat_r; [lra|]. apply Rle_trans with (/ F); auto. unfold alpha. apply (Rmult_le_reg_r (F * p)); [apply Rmult_lt_0_compat; lra|].
          replace (/ F * (F * p)) with p by (field; lra). replace (sumsq gg / p * (F * p)) with (F * sumsq gg) by (field; lra). auto. }
        (* the quadratic model is convex between the two ends *)
        assert (Eag : gn = vadd a w). { apply (nth_ext' _ _ 0); [rewrite vadd_length; congruence|]. intros i Hi. rewrite nth_vadd by congruence. unfold w. rewrite nth_vsub by congruence. lra. }
        assert (Hla' : length a = snd (m_shape A)) by (rewrite Hsh; auto). assert (Hlw' : length w = snd (m_shape A)) by (rewrite Hsh; auto).
        rewrite mapply_add by (rewrite ?vscale_length; auto). rewrite mapply_scale by auto. rewrite sumsq_add by (rewrite vscale_length, !LA; auto). rewrite vdot_add_l by (rewrite vscale_length; congruence). rewrite vdot_scale_l, vdot_scale_r, sumsq_scale.
        assert (Egg : 2 * vdot gn gg - sumsq (mapply A gn) = 2 * vdot a gg - sumsq (mapply A a) + 2 * vdot w gg - 2 * vdot (mapply A a) (mapply A w) - sumsq (mapply A w)).
        { rewrite Eag. rewrite mapply_add by auto. rewrite sumsq_add by (rewrite !LA; auto). rewrite vdot_add_l by congruence. lra. }
        set (X := vdot (mapply A a) (mapply A w)) in *. set (Y := sumsq (mapply A w)) in *. assert (HY : 0 <= Y) by apply sumsq_nonneg.
        set (W := vdot w gg) in *. rewrite Hag, HAa in *. set (Z := alpha * sumsq gg) in *.
        assert (Hend : kk <= Z + 2 * W - 2 * X - Y) by lra.
        assert (bt * bt * Y <= bt * Y) by (apply Rmult_le_compat_r; nra).
        assert (Hin : bt * (kk - Z) <= bt * (2 * W - 2 * X - Y)) by (apply Rmult_le_compat_l; lra).
        assert (Hcvx : kk <= Z + bt * (2 * W - 2 * X - Y)). { assert (0 <= (1 - bt) * (Z - kk)) by (apply Rmult_le_pos; lra). lra. }
        lra. }
    assert (Hmp : 0 < Rmin (s_extra s * vnorm gg) kk) by (apply Rmin_glb_lt; auto).
    destruct (T1 ltac:(lra)) as (Hq1 & Hf' & Hc' & Hte). split; [exact Hf'|]. split; [auto using Rlt_le|]. split; [lia|]. right. split; [|split; [lra|]].
    + rewrite Eex. apply (dogleg_radius_ok (s_extra s) q d Hx). lra.
    + exists d. split; auto. destruct (dogleg_step_ok gg (mapply A gg) gn (s_extra s) Hx ltac:(congruence)) as (_ & C1 & C2 & _).
      { left. assert (Hnz : gg <> vzero n). { intros Hzz. rewrite Hzz, sumsq_dot, vdot_zero_l in Hp. lra. }
        pose proof (res_length' s Hf) as Hm. assert (Hneg : length (vneg (s_res s)) = fst (m_shape A)) by (unfold vneg; rewrite map_length, Hsh; auto).
        destruct (steepest_defined A (vneg (s_res s)) HA Hneg) as (Hpp & _); [rewrite Hsh; exact Hnz|]. change (mapply (transpose A) (vneg (s_res s))) with gg in Hpp. lra. }
      rewrite <- Ed in C1, C2. destruct (Rle_lt_dec (vnorm gn) (s_extra s)) as [Hc|Hc].
      * left. rewrite (C1 Hc). apply long_step; auto; [lra | fold gg; congruence].
      * right. rewrite <- (proj2 (vnorm_sq d)), (C2 Hc). auto.
  - symmetry in Hz0. pose proof (Hz (grad_zero' s Hz0)) as Hgz.
    assert (Hd0 : d = vzero n).
    { rewrite Ed. destruct (dogleg_step_ok gg (mapply A gg) gn (s_extra s) Hx ltac:(congruence)) as (_ & C1 & _).
      - right. rewrite Hgz, (vnorm_eq _ 0); [lra | lra | rewrite sumsq_dot, vdot_zero_l; ring].
      - rewrite C1; auto. rewrite Hgz, (vnorm_eq _ 0); [lra | lra | rewrite sumsq_dot, vdot_zero_l; ring]. }
    destruct (T2 Hd0) as (Hf' & Hc'). split; [exact Hf'|]. split; [auto using Rlt_le|]. split; [lia|]. left; auto.
Qed.

Lemma gn_stop cfg s s' : fresh s -> gn_step E cfg lin g s = Ok s' ->
  fresh s' /\ s_iter s' = S (s_iter s) /\ s_cost s' <= s_cost s - kappa 0 * sumsq (ngrad s) /\
  exists d, kappa 0 * kappa 0 * sumsq (ngrad s) <= sumsq d /\ tested cfg s s' d.
Proof.
  intros Hf H. unfold gn_step in H. apply bind_ok in H. destruct H as (((b & delta) & a') & Hu & H).
  apply bind_ok in H. destruct H as ((c' & r') & Ec & H). apply bind_ok in H. destruct H as (conv & Hconv & H). injection H as <-. cbn [fst snd] in *.
  pose proof (res_length' s Hf) as Hm. assert (Hm' : length (s_res s) = fst (m_shape A)) by (rewrite ?Hsh; auto).
  unfold gn_update in Hu. rewrite (HJ s Hf) in Hu. cbn [bind] in Hu. rewrite matmul_mapply in Hu by (auto using transpose_ok). cbn [bind] in Hu.
  rewrite neg_gradient in Hu by auto. change (mapply (transpose A) (vneg (s_res s))) with (ngrad s) in Hu. change (n0 (T := R)) with 0 in Hu.
  destruct (part s 0 Hf ltac:(lra)) as (x & Ex & Hx & Hlow & Hle & _). rewrite Ex in Hu. cbn [bind] in Hu.
  apply bind_ok in Hu. destruct Hu as (a1 & Er & Hu). injection Hu as <- <- <-.
  destruct (moves E fs g LP CO Hok Hg Hne Hrd Hws A HA Hsh HJ s x Hf Hx) as (a2 & c2 & r2 & val2 & Er2 & Ec2 & Hh2 & Hc2 & Hfall & Hst2).
  rewrite (ig_local _ _ _ Hg) in Er. fold C L in Er. change (e_cls E) with C in Er2. fold L in Er2. rewrite Er in Er2. injection Er2 as <-. rewrite Ec in Ec2. injection Ec2 as <- <-.
  cbn [s_iter s_cost]. split; [split; [exact Ec | exists val2; auto]|]. split; [lia|]. split; [rewrite Hfall; unfold PLinTr.fall; lra|].
  exists x. split; [apply long_step; auto; [lra | rewrite ngrad_length'; auto]|]. split; [rewrite Hx; destruct Hf as (_ & val & Ha); apply (held_length E fs LP CO _ _ Ha)|]. split; [exact Hst2|]. cbn [s_done s_cost]. intros Hd.
  apply (tests_pass cfg s c' x (ngrad s) conv true); auto.
Qed.
End Lin.
