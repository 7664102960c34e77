(* The trust-region solvers close to an exact fit. *)
From Coq Require Import List Arith Bool ZArith Lia Reals Lra Psatz.
From Verif Require Import Num NumR Py Arr MLayout MAssign MNoise MSparse MFactor MGraph MLinear MSolver SpecLayout SpecTree SpecAssign SpecGraph SpecSparse SpecDeriv SpecSolver SpecOrder SpecInv SpecLin SpecCgLin SpecDescent SpecLocal SpecTrust.
From Verif Require Import PBase PLayout PAssign PAssign2 PStack PGraph PGraph2 PGraph3 PGraph4 PVec PSparse PLinear PCg PCgConv PJac PGraph5 PLayout2 POrder POrder2 PHold PExGraph PSolver PSolver2 PInv PTotal PSolverR PDescent PLin PLinDl PLinCg PLocal PBasin4 PBasin5 PBasin6.
Import ListNotations.
Local Open Scope R_scope.

(* the dogleg step keeps the inner product with the negative gradient above |A d|^2 *)
Lemma dogleg_dir (A : coo R) rhs mu gn radius : coo_ok A -> length rhs = fst (m_shape A) -> let g := mapply (transpose A) rhs in 0 < mu -> 0 < radius -> normal_ok A mu g gn ->
  let d := dogleg_step_of g (mapply A g) gn radius in length d = snd (m_shape A) -> sumsq (mapply A d) <= vdot d g.
Proof.
  intros HA Hr g Hmu Hrad Hn d Hld. pose proof Hn as (Hgn & _). set (n := snd (m_shape A)) in *. assert (Hg : length g = n) by apply mapply_length. pose proof (sumsq_nonneg g) as Hg0.
  assert (Hweak := proj1 (normal_weak A mu HA g gn Hg Hgn) Hn).
  assert (Dg : sumsq (mapply A gn) + mu * sumsq gn = vdot gn g) by (rewrite !sumsq_dot; apply Hweak; auto). pose proof (sumsq_nonneg gn) as Hgn0. assert (Hmg : 0 <= mu * sumsq gn) by (apply Rmult_le_pos; lra).
  destruct (Rle_lt_dec (vnorm gn) radius) as [Hc|Hc].
  { assert (Ed : d = gn) by (subst d; unfold dogleg_step_of; rn; rewrite (proj2 (Rleb_ok _ _) Hc); auto). rewrite Ed. lra. }
  assert (Hnz : g <> vzero n).
  { intros Hz. assert (gn = vzero n) by (apply (proj1 (normal_descent A mu rhs gn HA Hmu Hr Hn)); exact Hz).
    subst gn. rewrite (vnorm_eq _ 0) in Hc; [lra | lra|]. rewrite sumsq_dot, vdot_zero_r. ring. }
  assert (Hgp : 0 < sumsq g) by (rewrite sumsq_dot; apply (dot_pos n); auto).
  destruct (steepest_defined A rhs HA Hr Hnz) as (Hp & _). fold g in Hp.
  destruct (dogleg_step_ok g (mapply A g) gn radius Hrad ltac:(lia) ltac:(left; lra)) as (N1 & _ & _ & C2 & C3).
  fold d in N1, C2, C3. set (p := sumsq (mapply A g)) in *. set (alpha := sumsq g / p) in *. set (a := vscale alpha g) in *.
  assert (Hal : 0 < alpha) by (apply Rdiv_lt_0_compat; auto). assert (Hap : alpha * p = sumsq g) by (unfold alpha; field; lra).
  destruct (vnorm_sq g) as (G0 & G1). assert (G2 : 0 < vnorm g) by nra.
  assert (Na : vnorm a = alpha * vnorm g). { apply vnorm_eq; [apply Rmult_le_pos; lra|]. unfold a. rewrite sumsq_scale, <- G1. ring. }
  assert (Hla : length a = n) by (unfold a; rewrite vscale_length; auto).
  destruct (Rle_lt_dec radius (vnorm a)) as [Hc2|Hc2].
  { specialize (C2 Hc Hc2).
    assert (Ed : vscale (radius / vnorm a) a = vscale (radius / vnorm g) g).
    { apply (nth_ext' _ _ 0); [unfold a; rewrite !vscale_length; auto|]. intros i _. rewrite Na. unfold a. rewrite !nth_vscale. field. lra. }
    rewrite C2, Ed. rewrite vdot_scale_l, <- sumsq_dot, mapply_scale, sumsq_scale by auto. fold p.
    set (t := radius / vnorm g). assert (Htg : t * vnorm g = radius) by (unfold t; field; lra). assert (Ht : 0 < t) by (apply Rdiv_lt_0_compat; auto).
    assert (Hta : t <= alpha) by (apply (Rmult_le_reg_r (vnorm g)); auto; rewrite Htg, <- Na; auto).
    assert (Htp : t * p <= sumsq g) by (rewrite <- Hap; apply Rmult_le_compat_r; lra). assert (t * (t * p) <= t * sumsq g) by (apply Rmult_le_compat_l; lra). lra. }
  destruct (C3 Hc Hc2) as (bt & Hbt & Ed & _ & _). rewrite Ed in *. set (w := vsub gn a) in *. assert (Hlw : length w = n) by (unfold w; rewrite vsub_length; lia).
  pose proof (Hweak w Hlw) as Hw. pose proof (Hweak a Hla) as Ha.
  rewrite mapply_add, mapply_scale, sumsq_add by (auto; rewrite ?vscale_length, ?mapply_length; auto). rewrite vdot_add_l by (rewrite vscale_length; lia). rewrite vdot_scale_l, vdot_scale_r, sumsq_scale.
  assert (Eag : mapply A gn = vadd (mapply A a) (mapply A w)).
  { rewrite <- mapply_add by auto. f_equal. apply (nth_ext' _ _ 0); [rewrite vadd_length; lia|]. intros i Hi. rewrite nth_vadd by lia. unfold w. rewrite nth_vsub by lia. lra. }
  rewrite Eag, vdot_add_r in Hw, Ha by (rewrite !mapply_length; auto). rewrite <- (sumsq_dot (mapply A w)) in Hw. rewrite <- (sumsq_dot (mapply A a)) in Ha. rewrite (vdot_comm (mapply A w) (mapply A a)) in Hw.
  assert (Hwb : 0 <= vdot w gn).
  { unfold w. rewrite vdot_sub_l by lia. rewrite <- sumsq_dot. pose proof (dot_le_norms a gn ltac:(lia)). destruct (vnorm_sq gn) as (B0 & B1). rewrite <- B1. destruct (vnorm_sq a) as (A0 & _).
    assert (vnorm a * vnorm gn <= vnorm gn * vnorm gn) by (apply Rmult_le_compat_r; lra). lra. }
  assert (Hmw : 0 <= mu * vdot w gn) by (apply Rmult_le_pos; lra).
  assert (Haa : vdot a g = alpha * sumsq g) by (unfold a; rewrite vdot_scale_l, <- sumsq_dot; auto).
  assert (Haq : sumsq (mapply A a) = alpha * sumsq g) by (unfold a; rewrite mapply_scale by auto; rewrite sumsq_scale; fold p; rewrite <- Hap; ring).
  assert (Hagn : vdot a gn = alpha * vdot gn g) by (unfold a; rewrite vdot_scale_l, vdot_comm; auto).
  assert (P1 : 0 <= vdot gn g) by (pose proof (sumsq_nonneg (mapply A gn)); lra).
  assert (P2 : 0 <= mu * vdot a gn) by (rewrite Hagn; apply Rmult_le_pos; [lra|]; apply Rmult_le_pos; lra).
  set (q := sumsq (mapply A w)) in *. assert (Hq : 0 <= q) by apply sumsq_nonneg. set (x := vdot (mapply A a) (mapply A w)) in *.
  assert (Hx : x <= 0) by lra. assert (E1 : bt * vdot w g = bt * (x + q + mu * vdot w gn)) by (rewrite <- Hw; ring). rewrite Haa, Haq, E1.
  assert (bt * bt * q <= bt * q) by (assert (bt * bt <= bt * 1) by (apply Rmult_le_compat_l; lra); apply Rmult_le_compat_r; lra).
  assert (0 <= bt * (mu * vdot w gn)) by (apply Rmult_le_pos; lra). assert (bt * x <= 0) by (assert (0 <= bt * - x) by (apply Rmult_le_pos; lra); lra). lra.
Qed.

Section Trust.
Variable E : env R.
Let C := e_cls E.
Variable fs : list (factor R).
Variable g : graph R.
Hypothesis HP : plain_problem E fs.
Hypothesis CO : classes_ok C.
Hypothesis Hok : forall f, In f fs -> factor_ok f.
Hypothesis Eg : graph_make E fs = Ok g.
Hypothesis Hg : is_graph E fs g.
Hypothesis Hne : fs <> [].
Hypothesis Hrd : total residual_dim fs <> 0%nat.
Hypothesis Hws : well_shaped E fs.
Let L := graph_layout E fs true.
Let n := l_dim L.
Let mm := total residual_dim fs.
Notation fresh := (fresh E fs g).

Variables (z : assign R) (valz : var -> pytree R) (rz : list R) (rho m K f Lt : R).
Hypothesis Hz : holds E fs z valz.
Hypothesis Ez : compute_cost E g z = Ok (0, rz).
Hypothesis Prho : 0 < rho.
Hypothesis Hm : 0 < m.
Hypothesis HK : 0 <= K.
Hypothesis Hf : 0 <= f.
Hypothesis HL : 0 <= Lt.
Hypothesis Hrho : 0 + K * m * rho < m * m.
Hypothesis Hreg : regular_near E fs g z rz rho m K 0.
Hypothesis Hbd : bounded_near E fs g z rho f.
Hypothesis Htay : taylor_near E fs g z rho Lt.
Notation dist := (dist z).
Notation err := (err z).

Lemma fresh_ready s : fresh s -> ready E fs g s.
Proof. intros (Hc & val & Hh). split; auto. exists val. split; auto. Qed.
Lemma fit_zero : length rz = mm /\ rz = vzero mm.
Proof.
  pose proof (holds_legal E fs CO z valz Hz) as Hl. destruct (one_cost E fs g Hok Hg z valz (holds_assigns E fs z valz Hz)) as (Hw & Hcost); auto; [intros f0 Hf0; apply (ws_residual E fs Hws); auto|].
  rewrite Ez in Hcost. injection Hcost as Hc Hr. assert (Hlen : length rz = mm) by (rewrite Hr; apply rvec_length; auto). split; auto. rewrite <- Hlen. apply PVec.sumsq_zero. rewrite Hr, <- Hc. auto.
Qed.

Lemma layout_of a val : holds E fs a val -> same_layout (as_layout a) (g_layout g).
Proof. intros (vs & _ & H & _). rewrite (ig_layout _ _ _ Hg). auto. Qed.

(* the residual, the error and the gradient have the same size *)
Lemma sizes s A ng : fresh s -> compute_whitened_residual_jacobian E g (s_assign s) (s_res s) = Ok A -> dist (s_assign s) <= rho / 2 ->
  matmul (transpose A) (vneg (s_res s)) = Ok ng ->
  let e := dist (s_assign s) in s_cost s = sumsq (s_res s) /\
  vnorm (s_res s) <= (f + K * rho) * e /\ m / 2 * e <= vnorm (s_res s) /\ m * m / 2 * e <= vnorm ng /\ vnorm ng <= f * vnorm (s_res s).
Proof.
  intros Hs EA Hd ET e. destruct (near_facts E fs g HP CO Hok Hg Hne Hrd Hws z valz 0 rz rho m K 0 Hz Ez Hreg s A Hs EA ltac:(lra)) as (HA & Hsh & Hr & Hrz & He & Hlow & HW & _). change (l_dim (graph_layout E fs true)) with n in Hsh, He, Hlow. change (total residual_dim fs) with mm in Hsh, Hr, Hrz.
  destruct (ready_at E fs g CO Hok Eg Hws Hrd s A (fresh_ready s Hs) EA) as (_ & _ & Hc & _). rewrite sumsq_neg in Hc. split; auto.
  assert (Hup : forall y, length y = n -> sumsq (mapply A y) <= f * f * sumsq y).
  { intros y Hy. destruct Hs as (Hcur & val & Ha). apply (Hbd (s_assign s) val (s_cost s) (s_res s) A); auto; [apply holds_assigns; auto | apply (layout_of _ val); auto | change (dist (s_assign s) <= rho); lra | apply matmul_mapply; auto; rewrite Hsh; auto]. }
  destruct fit_zero as (_ & Ezr). set (r := s_res s) in *. set (ee := err (s_assign s)) in *. change (vnorm ee) with e in *. assert (E0 : 0 <= e) by apply norm_pos.
  assert (Hlr : length (mapply A ee) = mm) by (rewrite mapply_length, Hsh; auto).
  assert (Hw : vnorm (vadd (mapply A ee) r) <= K * (e * e)).
  { eapply Rle_trans; [|exact HW]. right. f_equal. rewrite Ezr. apply (nth_ext' _ _ 0); [rewrite vsub_length; rewrite vadd_length; rewrite ?vzero_length; congruence|].
    intros i _. rewrite nth_vsub, nth_zero by (rewrite vadd_length, vzero_length; congruence). ring. }
  destruct (vnorm_sq ee) as (N1 & N2). destruct (vnorm_sq (mapply A ee)) as (N3 & N4). change (vnorm ee) with e in N2.
  assert (A1 : vnorm (mapply A ee) <= f * e) by (apply norm_le_of; [apply Rmult_le_pos; auto|]; pose proof (Hup ee He) as H; rewrite <- N2 in H; lra).
  assert (A2 : m * e <= vnorm (mapply A ee)). { pose proof (Hlow ee He) as H. rewrite <- N2, <- N4 in H. assert (0 <= m * e) by (apply Rmult_le_pos; lra). nra. }
  assert (A3 : K * e <= m / 2).
  { assert (K * m * e <= K * m * (rho / 2)) by (apply Rmult_le_compat_l; [apply Rmult_le_pos; lra | exact Hd]). apply (Rmult_le_reg_l m); auto. lra. }
  assert (A4 : K * (e * e) <= m / 2 * e) by (rewrite <- Rmult_assoc; apply Rmult_le_compat_r; auto).
  assert (T1 : vnorm r <= vnorm (vadd (mapply A ee) r) + vnorm (mapply A ee)).
  { pose proof (norm_split (vadd (mapply A ee) r) (mapply A ee)) as H. 
    assert (T : vsub (vadd (mapply A ee) r) (mapply A ee) = r) by (apply (nth_ext' _ _ 0); [rewrite vsub_length; rewrite vadd_length; congruence|]; intros i _; rewrite nth_vsub, nth_vadd by (rewrite ?vadd_length; congruence); ring).
    rewrite <- T at 1. set (p := vadd (mapply A ee) r) in *. assert (Lp : length p = length (mapply A ee)) by (unfold p; rewrite vadd_length; congruence).
    replace (vsub p (mapply A ee)) with (vadd p (vneg (mapply A ee))) by (apply (nth_ext' _ _ 0); [rewrite vadd_length, vsub_length; rewrite ?vneg_length; auto|]; intros i _; rewrite nth_vsub, nth_vadd by (rewrite ?vneg_length; auto); rewrite nth_vneg; ring).
    eapply Rle_trans; [apply norm_add; rewrite vneg_length; auto|]. assert (Hng : vnorm (vneg (mapply A ee)) = vnorm (mapply A ee)) by (apply vnorm_eq; auto; rewrite sumsq_neg; auto). lra. }
  assert (T2 : vnorm (mapply A ee) <= vnorm (vadd (mapply A ee) r) + vnorm r).
  { assert (T : vadd (vadd (mapply A ee) r) (vneg r) = mapply A ee) by (apply (nth_ext' _ _ 0); [rewrite vadd_length; rewrite ?vneg_length, vadd_length; congruence|]; intros i _; rewrite !nth_vadd by (rewrite ?vneg_length, ?vadd_length; congruence); rewrite nth_vneg; ring).
    rewrite <- T at 1. eapply Rle_trans; [apply norm_add; rewrite vneg_length, vadd_length; congruence|]. assert (Hng : vnorm (vneg r) = vnorm r) by (apply vnorm_eq; [apply norm_pos|]; rewrite sumsq_neg; symmetry; apply vnorm_sq). lra. }
  assert (Hde : e <= rho / 2) by exact Hd.
  assert (R1 : K * (e * e) <= K * rho * e) by (rewrite Rmult_assoc; apply Rmult_le_compat_l; auto; apply Rmult_le_compat_r; auto; lra).
  split; [lra|]. split; [lra|].
  destruct (lm_rhs E fs A r ng HA Hsh Hr ET) as (Lng & Hdot). change (l_dim (graph_layout E fs true)) with n in Lng, Hdot. split.
  - (* <e, ng> = - <A e, r> >= |A e| (|A e| - K |e|^2) *)
    pose proof (Hdot ee He) as D1. pose proof (dot_le_norms ee ng ltac:(congruence)) as D2. change (vnorm ee) with e in D2.
    assert (D3 : vdot (mapply A ee) (vadd (mapply A ee) r) = sumsq (mapply A ee) + vdot (mapply A ee) r) by (rewrite vdot_add_r, <- sumsq_dot by congruence; auto).
    pose proof (dot_le_norms (mapply A ee) (vadd (mapply A ee) r) ltac:(rewrite vadd_length; congruence)) as D4.
    assert (D5 : vnorm (mapply A ee) * vnorm (vadd (mapply A ee) r) <= vnorm (mapply A ee) * (m / 2 * e)) by (apply Rmult_le_compat_l; [auto | lra]).
    assert (D6 : (m * e) * (m / 2 * e) <= vnorm (mapply A ee) * (vnorm (mapply A ee) - m / 2 * e)) by (assert (0 <= m * e) by (apply Rmult_le_pos; lra); assert (0 <= m / 2 * e) by (apply Rmult_le_pos; lra); apply Rmult_le_compat; lra).
    destruct E0 as [E0|E0]; [|rewrite <- E0, Rmult_0_r; apply norm_pos]. apply (Rmult_le_reg_l e); auto. rewrite <- N4 in D3. lra.
  - (* |ng|^2 = - <A ng, r> *)
    pose proof (Hdot ng Lng) as D1. destruct (vnorm_sq ng) as (G0 & G1). rewrite <- sumsq_dot, <- G1 in D1.
    assert (D2 : - vdot (mapply A ng) r <= vnorm (mapply A ng) * vnorm r).
    { rewrite <- vdot_neg_r. pose proof (dot_le_norms (mapply A ng) (vneg r) ltac:(rewrite vneg_length, mapply_length, Hsh; cbn; congruence)) as H. assert (Hng : vnorm (vneg r) = vnorm r) by (apply vnorm_eq; [apply norm_pos|]; rewrite sumsq_neg; symmetry; apply vnorm_sq). rewrite Hng in H. auto. }
    assert (D3 : vnorm (mapply A ng) <= f * vnorm ng) by (apply norm_le_of; [apply Rmult_le_pos; auto|]; pose proof (Hup ng Lng) as H; rewrite <- G1 in H; lra).
    assert (D4 : vnorm (mapply A ng) * vnorm r <= f * vnorm ng * vnorm r) by (apply Rmult_le_compat_r; auto; apply norm_pos).
    destruct G0 as [G0|G0]; [|rewrite <- G0; apply Rmult_le_pos; auto; apply norm_pos]. apply (Rmult_le_reg_l (vnorm ng)); auto. lra.
Qed.

(* ---- one proposal ---- *)
Variables (tau eta : R).
Hypothesis Htau : 0 <= tau.
Hypothesis Htau1 : 3 * tau <= m * (rho / 2).
Hypothesis Htau2 : 2 * tau * Lt + Lt * Lt * (tau * tau / (m * m)) <= (1 - eta) * (m * m).
Definition inside (s : sstate R) : Prop := fresh s /\ dist (s_assign s) <= rho / 2 /\ s_cost s <= tau * tau.

Lemma proposal s A d Ad ng prop c r : inside s -> compute_whitened_residual_jacobian E g (s_assign s) (s_res s) = Ok A -> matmul (transpose A) (vneg (s_res s)) = Ok ng ->
  length d = n -> matmul A d = Ok Ad -> sumsq Ad <= vdot d ng -> manifold_retract C (s_assign s) (mkAssign d (g_local_layout g)) = Ok prop -> compute_cost E g prop = Ok (c, r) ->
  let P := s_cost s - sumsq (vadd Ad (s_res s)) in
  P = 2 * vdot d ng - sumsq Ad /\ m * m * sumsq d <= P /\ c <= s_cost s - eta * P /\ dist prop <= rho / 2 /\ (exists val, holds E fs prop val) /\ (sumsq d = 0 -> c = s_cost s /\ r = s_res s).
Proof.
  intros (Hs & Hd & Htc) EA ET Hld EAd Hdir Hp Hc P. 
  destruct (near_facts E fs g HP CO Hok Hg Hne Hrd Hws z valz 0 rz rho m K 0 Hz Ez Hreg s A Hs EA ltac:(lra)) as (HA & Hsh & Hr & Hrz & He & Hlow & _ & _). change (l_dim (graph_layout E fs true)) with n in Hsh, He, Hlow. change (total residual_dim fs) with mm in Hsh, Hr, Hrz.
  destruct (sizes s A ng Hs EA Hd ET) as (Ec & _ & S2 & _).
  destruct (ready_at E fs g CO Hok Eg Hws Hrd s A (fresh_ready s Hs) EA) as (_ & Hlr & _ & _ & _).
  rewrite matmul_mapply in EAd by (auto; rewrite Hsh; auto). injection EAd as <-.
  assert (HPe : P = 2 * vdot d ng - sumsq (mapply A d)).
  { pose proof (model_change A (vneg (s_res s)) HA Hlr d ltac:(rewrite Hsh; auto)) as H. rewrite vsub_neg_add in H by (rewrite mapply_length, Hsh; auto). rewrite sumsq_neg, <- Ec in H.
    rewrite matmul_mapply in ET by (auto using transpose_ok). injection ET as <-. unfold P. lra. }
  assert (HPd : m * m * sumsq d <= P) by (pose proof (Hlow d Hld); lra). split; auto. split; auto.
  pose proof (sumsq_nonneg d) as D0. pose proof (sumsq_nonneg (vadd (mapply A d) (s_res s))) as U0.
  (* the step is short *)
  assert (Pmm : 0 < m * m) by (apply Rmult_lt_0_compat; auto).
  assert (Hr0 : vnorm (s_res s) <= tau) by (apply norm_le_of; auto; lra).
  assert (Hdn : m * vnorm d <= tau).
  { destruct (vnorm_sq d) as (V0 & V1). assert ((m * vnorm d) * (m * vnorm d) <= tau * tau) by (unfold P in HPd; rewrite <- V1 in HPd; lra). apply Rsqr_incr_0_var; auto. }
  pose proof Hs as (Hcur & val & Hh). rewrite (ig_local _ _ _ Hg) in Hp. destruct (move E fs g HP CO Hok Hg Hne Hws z valz Hz s d Hs Hld) as (a' & c' & r' & val' & Er & Ec' & Hh' & Herr).
  unfold C in Hp. rewrite Er in Hp. injection Hp as ->. rewrite Hc in Ec'. injection Ec' as <- <-.
  assert (Dp : dist prop <= rho / 2).
  { unfold PLocal.dist. rewrite Herr. replace (vsub (err (s_assign s)) d) with (vadd (err (s_assign s)) (vneg d)) by (apply (nth_ext' _ _ 0); [rewrite vadd_length, vsub_length; rewrite ?vneg_length; congruence|]; intros i _; rewrite nth_vsub, nth_vadd by (rewrite ?vneg_length; congruence); rewrite nth_vneg; ring).
    eapply Rle_trans; [apply norm_add; rewrite vneg_length; congruence|]. assert (Hng : vnorm (vneg d) = vnorm d) by (apply vnorm_eq; [apply norm_pos|]; rewrite sumsq_neg; symmetry; apply vnorm_sq). rewrite Hng.
    change (vnorm (err (s_assign s))) with (dist (s_assign s)). apply (Rmult_le_reg_l m); auto. lra. }
  assert (Hst : vsub (as_storage prop) (as_storage (s_assign s)) = d).
  { destruct (pl_retract E fs HP CO Hws (s_assign s) val d Hh Hld) as (a2 & val2 & Er2 & _ & Hst). rewrite Er in Er2. injection Er2 as <-. rewrite Hst.
    pose proof (pl_held_length E fs HP CO _ _ Hh : _ = n) as Ls. apply (nth_ext' _ _ 0); [rewrite vsub_length; rewrite vadd_length; congruence|]. intros i _. rewrite nth_vsub, nth_vadd by (rewrite ?vadd_length; congruence). ring. }
  assert (Hte : vnorm (vsub r (vadd (mapply A d) (s_res s))) <= Lt * sumsq d).
  { pose proof (Htay (s_assign s) val (s_cost s) (s_res s) A prop val' c r (holds_assigns E fs _ _ Hh) (layout_of _ _ Hh) Hcur EA (holds_assigns E fs _ _ Hh') (layout_of _ _ Hh') Hc) as H.
    rewrite Hst in H. apply H; [change (dist (s_assign s) <= rho); lra | change (dist prop <= rho); lra | apply matmul_mapply; auto; rewrite Hsh; auto]. }
  destruct (prop_cost E fs g CO Hok Eg Hws Hrd s A d prop c r (fresh_ready s Hs) EA ltac:(rewrite Hsh; auto) ltac:(rewrite (ig_local _ _ _ Hg); auto) Hc) as (Lr & Ecr). rewrite Hsh in Lr. cbn [fst] in Lr.
  set (u := vadd (mapply A d) (s_res s)) in *. assert (Lu : length u = mm) by (unfold u; rewrite vadd_length; rewrite mapply_length, Hsh; auto).
  split; [|split; [auto|]; split; [eauto|]].
  - set (ev := vsub r u) in *. assert (Lev : length ev = length u) by (unfold ev; rewrite vsub_length; congruence).
    assert (Er' : r = vadd u ev) by (apply (nth_ext' _ _ 0); [rewrite vadd_length; congruence|]; intros i Hi; rewrite nth_vadd by congruence; unfold ev; rewrite nth_vsub by congruence; ring).
    pose proof (norm_triangle u ev ltac:(auto)) as Htri. rewrite <- Er', <- Ecr in Htri. destruct (vnorm_sq u) as (V0 & V1). destruct (vnorm_sq ev) as (W0 & _).
    assert (Hu : vnorm u <= tau) by (apply norm_le_of; auto; assert (0 <= m * m * sumsq d) by (apply Rmult_le_pos; lra); unfold P in HPd; lra).
    assert (Hk : 0 <= Lt * sumsq d) by (apply Rmult_le_pos; auto).
    assert (H1 : vnorm u * vnorm ev <= tau * (Lt * sumsq d)) by (apply Rmult_le_compat; auto).
    assert (H2 : vnorm ev * vnorm ev <= (Lt * sumsq d) * (Lt * sumsq d)) by (apply Rmult_le_compat; auto).
    assert (H3 : sumsq d <= tau * tau / (m * m)).
    { apply (Rmult_le_reg_l (m * m)); auto. replace (m * m * (tau * tau / (m * m))) with (tau * tau) by (field; lra). unfold P in HPd. lra. }
    assert (H4 : (Lt * sumsq d) * (Lt * sumsq d) <= Lt * Lt * (tau * tau / (m * m)) * sumsq d).
    { replace ((Lt * sumsq d) * (Lt * sumsq d)) with (Lt * Lt * sumsq d * sumsq d) by ring. apply Rmult_le_compat_r; auto. apply Rmult_le_compat_l; auto. apply Rmult_le_pos; auto. }
    assert (H5 : (2 * tau * Lt + Lt * Lt * (tau * tau / (m * m))) * sumsq d <= (1 - eta) * (m * m) * sumsq d) by (apply Rmult_le_compat_r; auto).
    assert (He1 : eta <= 1).
    { destruct (Rle_lt_dec eta 1) as [|Hlt]; auto. exfalso. assert (0 <= tau * Lt) by (apply Rmult_le_pos; auto). assert (0 <= Lt * Lt * (tau * tau / (m * m))) by (apply Rmult_le_pos; [apply Rmult_le_pos; auto | apply Rmult_le_pos; [apply Rmult_le_pos; auto | left; apply Rinv_0_lt_compat; auto]]).
      assert (0 < (eta - 1) * (m * m)) by (apply Rmult_lt_0_compat; lra). lra. }
    assert (H6 : (1 - eta) * (m * m * sumsq d) <= (1 - eta) * P) by (apply Rmult_le_compat_l; lra).
    unfold P in *. rewrite <- V1 in *. lra.
  - intros Hz0. rewrite Hz0, Rmult_0_r in Hte. assert (E0 : vnorm (vsub r u) = 0) by (pose proof (norm_pos (vsub r u)); lra).
    assert (Hzd : d = vzero n) by (apply PVec.sumsq_zero in Hz0; rewrite Hz0; f_equal; auto). 
    assert (Eu : u = s_res s).
    { unfold u. apply (nth_ext' _ _ 0); [rewrite vadd_length; rewrite mapply_length, Hsh; auto|]. intros i _. rewrite nth_vadd by (rewrite mapply_length, Hsh; auto).
      assert (Hz1 : mapply A d = vzero mm). { assert (Hss : sumsq (mapply A d) <= 0) by (rewrite HPe in HPd; assert (vdot d ng = 0) by (rewrite Hzd, vdot_comm; apply vdot_zero_r); lra). pose proof (sumsq_nonneg (mapply A d)).
        assert (Hl0 : length (mapply A d) = mm) by (rewrite mapply_length, Hsh; auto). rewrite <- Hl0. apply PVec.sumsq_zero. lra. }
      rewrite Hz1, nth_zero. ring. }
    assert (Er' : r = u).
    { assert (Hs0 : sumsq (vsub r u) = 0) by (destruct (vnorm_sq (vsub r u)) as (_ & <-); rewrite E0; ring). apply PVec.sumsq_zero in Hs0. apply (nth_ext' _ _ 0); [congruence|]. intros i _.
      assert (Hi : nth i (vsub r u) 0 = 0) by (rewrite Hs0; apply nth_zero). rewrite nth_vsub in Hi by congruence. lra. }
    rewrite Er', Eu in *. split; auto. rewrite Ecr, Ec. auto.
Qed.

(* ---- one iteration of either solver ---- *)
Lemma iteration qmin s s' A d ng prop c r q Ad : inside s -> 0 < qmin -> qmin <= eta -> trust_step E g qmin s s' A d prop c r q -> matmul (transpose A) (vneg (s_res s)) = Ok ng ->
  length d = n -> matmul A d = Ok Ad -> sumsq Ad <= vdot d ng ->
  let P := 2 * vdot d ng - sumsq Ad in
  inside s' /\ s_cost s' <= s_cost s - eta * P /\ ((0 < P /\ eta <= q /\ s_assign s' = prop) \/ (P = 0 /\ q < qmin /\ s_assign s' = s_assign s)).
Proof.
  intros Hin Hq Hqe [EA Ep Ec (Ad' & EAd' & Eq) Hacc Hrej Hres _] ET Hld EAd Hdir P. rewrite EAd in EAd'. injection EAd' as <-.
  destruct (proposal s A d Ad ng prop c r Hin EA ET Hld EAd Hdir Ep Ec) as (H1 & H2 & H3 & H4 & H5 & H6). set (P0 := s_cost s - sumsq (vadd Ad (s_res s))) in *. change (P0 = P) in H1. rewrite H1 in *.
  pose proof (sumsq_nonneg d) as D0. assert (Pmm : 0 < m * m) by (apply Rmult_lt_0_compat; auto). assert (P0' : 0 <= P) by (assert (0 <= m * m * sumsq d) by (apply Rmult_le_pos; lra); lra).
  destruct Hin as (Hs & Hd & Ht). rnin Eq. destruct P0' as [Pp|Pz].
  - assert (Hq' : eta <= q). { rewrite Eq. apply gain_back; [unfold P0 in *; lra|]. unfold P0 in *. replace (s_cost s - sumsq (vadd Ad (s_res s))) with P by lra. lra. }
    destruct (Hacc (proj2 (Rleb_ok _ _) (Rle_trans _ _ _ Hqe Hq'))) as (Ea & Ec'). assert (0 <= eta * P) by (apply Rmult_le_pos; lra). split; [|split; [rewrite Ec'; lra | left; auto]].
    destruct H5 as (val & Hh). split; [split; [unfold current; rewrite Ea, Ec', Hres; auto | rewrite Ea; eauto]|]. rewrite Ea, Ec'. split; auto. lra.
  - assert (Hd0 : sumsq d = 0) by nra. destruct (H6 Hd0) as (Ec0 & Er0).
    assert (Hq0 : q = 0) by (rewrite Eq; replace (sumsq (vadd Ad (s_res s)) - s_cost s) with 0 by (unfold P0 in *; lra); unfold Rdiv; rewrite Rinv_0; ring).
    assert (Hlt : q < qmin) by lra. destruct (Hrej (proj2 (Rleb_no _ _) Hlt)) as (Ea & Ec'). split; [|split; [rewrite Ec', <- Pz; lra | right; auto]].
    destruct Hs as (Hcur & Hh). split; [split; [unfold current; rewrite Ea, Ec', Hres, Er0; auto | rewrite Ea; eauto]|]. rewrite Ea, Ec'. auto.
Qed.
Lemma inside_zero s A ng : inside s -> compute_whitened_residual_jacobian E g (s_assign s) (s_res s) = Ok A -> matmul (transpose A) (vneg (s_res s)) = Ok ng -> sumsq ng = 0 -> s_cost s = 0 /\ dist (s_assign s) = 0.
Proof.
  intros (Hs & Hd & _) EA ET Hz0. destruct (sizes s A ng Hs EA Hd ET) as (S0 & S1 & S2 & S3 & S4). assert (N0 : vnorm ng = 0) by (apply vnorm_eq; lra). pose proof (norm_pos (PLocal.err z (s_assign s))) as Pd. change (0 <= dist (s_assign s)) in Pd.
  assert (Hd0 : dist (s_assign s) = 0). { assert (0 < m * m) by (apply Rmult_lt_0_compat; auto). nra. }
  split; auto. rewrite Hd0, Rmult_0_r in S1. pose proof (norm_pos (s_res s)). destruct (vnorm_sq (s_res s)) as (_ & V). rewrite S0, <- V. assert (vnorm (s_res s) = 0) by lra. nra.
Qed.

Lemma upper s A y : fresh s -> compute_whitened_residual_jacobian E g (s_assign s) (s_res s) = Ok A -> dist (s_assign s) <= rho / 2 -> length y = n -> sumsq (mapply A y) <= f * f * sumsq y.
Proof.
  intros Hs EA Hd Hy. destruct (near_facts E fs g HP CO Hok Hg Hne Hrd Hws z valz 0 rz rho m K 0 Hz Ez Hreg s A Hs EA ltac:(lra)) as (HA & Hsh & _).
  destruct Hs as (Hcur & val & Ha). apply (Hbd (s_assign s) val (s_cost s) (s_res s) A); auto; [apply holds_assigns; auto | apply (layout_of _ val); auto | change (dist (s_assign s) <= rho); lra | apply matmul_mapply; auto; rewrite Hsh; auto].
Qed.
Definition size : R := f + K * rho + 1.
Lemma size_pos : 0 < size /\ f + K * rho <= size.
Proof. unfold size. assert (0 <= K * rho) by (apply Rmult_le_pos; lra). lra. Qed.
(* |ng|^2 >= grow cost *)
Definition grow : R := (m * m / 2 / size) * (m * m / 2 / size).
Lemma gradient_size s A ng : inside s -> compute_whitened_residual_jacobian E g (s_assign s) (s_res s) = Ok A -> matmul (transpose A) (vneg (s_res s)) = Ok ng ->
  grow * s_cost s <= sumsq ng /\ vnorm ng <= f * tau /\ 0 <= s_cost s.
Proof.
  intros (Hs & Hd & Hc) EA ET. destruct (sizes s A ng Hs EA Hd ET) as (S0 & S1 & S2 & S3 & S4). destruct size_pos as (P1 & P2). pose proof (norm_pos (PLocal.err z (s_assign s))) as Pd. change (0 <= dist (s_assign s)) in Pd.
  destruct (vnorm_sq (s_res s)) as (R0 & R1). destruct (vnorm_sq ng) as (G0 & G1). set (e := dist (s_assign s)) in *.
  assert (Pmm : 0 < m * m / 2) by (assert (0 < m * m) by (apply Rmult_lt_0_compat; auto); lra).
  assert (H1 : vnorm (s_res s) <= size * e) by (eapply Rle_trans; [exact S1|]; apply Rmult_le_compat_r; auto).
  assert (H2 : m * m / 2 / size * vnorm (s_res s) <= vnorm ng).
  { eapply Rle_trans; [|exact S3]. apply (Rmult_le_reg_l size); auto. replace (size * (m * m / 2 / size * vnorm (s_res s))) with (m * m / 2 * vnorm (s_res s)) by (field; lra). replace (size * (m * m / 2 * e)) with (m * m / 2 * (size * e)) by ring. apply Rmult_le_compat_l; lra. }
  assert (H3 : 0 <= m * m / 2 / size) by (apply Rmult_le_pos; [lra | left; apply Rinv_0_lt_compat; auto]).
  assert (H4 : vnorm (s_res s) <= tau) by (apply norm_le_of; auto; lra).
  split; [|split; [eapply Rle_trans; [exact S4 | apply Rmult_le_compat_l; auto] | rewrite S0; apply sumsq_nonneg]].
  rewrite S0, <- R1, <- G1. unfold grow. assert (0 <= m * m / 2 / size * vnorm (s_res s)) by (apply Rmult_le_pos; auto). set (x := m * m / 2 / size) in *. replace (x * x * (vnorm (s_res s) * vnorm (s_res s))) with ((x * vnorm (s_res s)) * (x * vnorm (s_res s))) by ring. apply Rmult_le_compat; auto.
Qed.

Definition step_taken (qmin : R) (s s' : sstate R) (ok : Prop) : Prop :=
  (exists A d prop c r q, trust_step E g qmin s s' A d prop c r q /\ eta <= q /\ s_assign s' = prop /\ ok) \/ (s_cost s = 0 /\ dist (s_assign s) = 0 /\ s_assign s' = s_assign s).
Hypothesis Heta : 0 < eta.
Lemma lm_iteration cfg s s' : inside s -> 0 < lm_quality_min cfg -> lm_quality_min cfg <= eta -> 0 <= s_extra s -> lm_step E cfg cholmod_solve g s = Ok s' ->
  inside s' /\ s_cost s' <= (1 - eta * (grow / (f * f + (s_extra s + Rlit 1 100000)))) * s_cost s /\
  step_taken (lm_quality_min cfg) s s' (s_extra s' = s_extra s / lambda_factor cfg) /\ (s_extra s' = s_extra s / lambda_factor cfg \/ lambda_min cfg <= s_extra s').
Proof.
  intros Hin Hq Hqe Hx H. destruct (lm_tr E _ _ _ _ _ H) as (A & ng & d & prop & c & r & q & Ht & ET & Ed & Ee & _). pose proof (tr_A _ _ _ _ _ _ _ _ _ _ _ Ht) as EA.
  pose proof Hin as (Hs & Hd & _). destruct (ready_at E fs g CO Hok Eg Hws Hrd s A (fresh_ready s Hs) EA) as (HA & Hlr & _ & Hsn & Hlr'). rewrite (ig_local _ _ _ Hg) in Hsn. change (snd (m_shape A) = n) in Hsn.
  assert (Eng : ng = mapply (transpose A) (vneg (s_res s))) by (rewrite matmul_mapply in ET by (auto using transpose_ok); congruence). assert (Lng : length ng = snd (m_shape A)) by (rewrite Eng; apply mapply_length).
  assert (Hb : 0 < s_extra s + Rlit 1 100000) by (unfold Rlit; lra). destruct (cholmod_solve_ok A ng (s_extra s) (s_iter s) HA Hb Lng) as (d' & Ed' & Hn). rewrite Ed in Ed'. injection Ed' as <-. set (be := s_extra s + Rlit 1 100000) in *.
  pose proof (proj1 Hn) as Ld. assert (HF : sumsq (mapply A ng) <= f * f * sumsq ng) by (apply (upper s A); auto; congruence).
  assert (Pff : 0 <= f * f) by (apply Rmult_le_pos; auto). rewrite Eng in HF, Hn. destruct (damped_lower A (vneg (s_res s)) (f * f) HA Hlr Pff HF be d Hb Hn) as (D1 & D2). rewrite <- Eng in *.
  pose proof (sumsq_nonneg d) as D0. assert (D3 : 0 <= be * sumsq d) by (apply Rmult_le_pos; lra).
  destruct (iteration (lm_quality_min cfg) s s' A d ng prop c r q (mapply A d) Hin Hq Hqe Ht ET ltac:(congruence) (matmul_mapply A d HA Ld) ltac:(lra)) as (I1 & I2 & I3).
  destruct (gradient_size s A ng Hin EA ET) as (G1 & G2 & G3). assert (Pfb : 0 < f * f + be) by lra.
  assert (HP1 : grow / (f * f + be) * s_cost s <= 2 * vdot d ng - sumsq (mapply A d)).
  { apply Rle_trans with (sumsq ng / (f * f + be)); [|lra]. replace (grow / (f * f + be) * s_cost s) with (grow * s_cost s / (f * f + be)) by (unfold Rdiv; ring). apply Rmult_le_compat_r; auto. left. apply Rinv_0_lt_compat. auto. }
  split; auto. split; [assert (eta * (grow / (f * f + be) * s_cost s) <= eta * (2 * vdot d ng - sumsq (mapply A d))) by (apply Rmult_le_compat_l; lra); lra|]. rnin Ee.
  destruct I3 as [(I4 & I5 & I6)|(I4 & I5 & I6)].
  - rewrite (proj2 (Rleb_ok _ _) (Rle_trans _ _ _ Hqe I5)) in Ee. cbn in Ee. split; [left; exists A, d, prop, c, r, q; auto | left; exact Ee].
  - rewrite (proj2 (Rleb_no _ _) I5) in Ee. cbn [lm_lambda] in Ee. rnin Ee. split; [right | right; rewrite Ee; apply Rmax_l].
    destruct (inside_zero s A ng Hin EA ET) as (Z1 & Z2); auto. assert (D4 : sumsq ng / (f * f + be) <= 0) by (pose proof (sumsq_nonneg (mapply A d)); lra).
    pose proof (sumsq_nonneg ng). apply Rle_antisym; auto. apply (Rmult_le_reg_r (/ (f * f + be))); [apply Rinv_0_lt_compat; auto|]. unfold Rdiv in D4. lra.
Qed.

Definition dl_rate (radius : R) : R := Rmin (radius / (f * tau + 1)) (/ (f * f + Rlit 1 100000)).
Lemma dl_iteration cfg s s' : inside s -> 0 < dl_quality_min cfg -> dl_quality_min cfg <= eta -> 3 / 4 < eta -> 0 < s_extra s -> dl_step E cfg cholmod_solve g s = Ok s' ->
  inside s' /\ s_cost s' <= (1 - eta * (grow * dl_rate (s_extra s))) * s_cost s /\
  step_taken (dl_quality_min cfg) s s' (s_extra s <= s_extra s') /\ 0 < s_extra s'.
Proof.
  intros Hin Hq Hqe He34 Hx H. destruct (dl_tr E _ _ _ _ _ H) as (A & ng & gn & Asd & d & prop & c & r & q & Ht & ET & Egn & Easd & Ed & Ee & _). pose proof (tr_A _ _ _ _ _ _ _ _ _ _ _ Ht) as EA.
  pose proof Hin as (Hs & Hd & _). destruct (ready_at E fs g CO Hok Eg Hws Hrd s A (fresh_ready s Hs) EA) as (HA & Hlr & _ & Hsn & Hlr'). rewrite (ig_local _ _ _ Hg) in Hsn. change (snd (m_shape A) = n) in Hsn.
  assert (Eng : ng = mapply (transpose A) (vneg (s_res s))) by (rewrite matmul_mapply in ET by (auto using transpose_ok); congruence). assert (Lng : length ng = snd (m_shape A)) by (rewrite Eng; apply mapply_length).
  rewrite matmul_mapply in Easd by auto. injection Easd as <-.
  assert (Hmu : 0 < n0 + Rlit 1 100000) by (unfold Rlit; rn; lra). destruct (cholmod_solve_ok A ng n0 (s_iter s) HA Hmu Lng) as (x & Ex & Hn). rewrite Egn in Ex. injection Ex as <-.
  replace (n0 + Rlit 1 100000) with (Rlit 1 100000) in * by (rn; lra). set (mu := Rlit 1 100000) in *.
  assert (HF : sumsq (mapply A ng) <= f * f * sumsq ng) by (apply (upper s A); auto; congruence).
  assert (Pff : 0 <= f * f) by (apply Rmult_le_pos; auto). rewrite Eng in HF, Hn, Ed.
  destruct (dogleg_lower A (vneg (s_res s)) (f * f) HA Hlr Pff HF mu gn _ (s_extra s) Hmu Hx Hn eq_refl) as (D0 & D1 & D2).
  pose proof (dogleg_dir A (vneg (s_res s)) mu gn (s_extra s) HA Hlr Hmu Hx Hn D0) as D3. rewrite <- Ed in D0, D1, D2, D3. rewrite <- Eng in *.
  destruct (iteration (dl_quality_min cfg) s s' A d ng prop c r q (mapply A d) Hin Hq Hqe Ht ET ltac:(congruence) (matmul_mapply A d HA D0) D3) as (I1 & I2 & I3).
  destruct (gradient_size s A ng Hin EA ET) as (G1 & G2 & G3). assert (Pfb : 0 < f * f + mu) by lra. destruct (vnorm_sq ng) as (V0 & V1). assert (Pft : 0 <= f * tau) by (apply Rmult_le_pos; auto).
  assert (Pdr : 0 <= dl_rate (s_extra s)) by (unfold dl_rate; fold mu; apply Rmin_glb; [apply Rmult_le_pos; [lra | left; apply Rinv_0_lt_compat; lra] | left; apply Rinv_0_lt_compat; auto]).
  assert (HP1 : sumsq ng * dl_rate (s_extra s) <= 2 * vdot d ng - sumsq (mapply A d)).
  { eapply Rle_trans; [|exact D2]. pose proof (sumsq_nonneg ng) as N0. apply Rmin_glb.
    - apply Rle_trans with (sumsq ng * (s_extra s / (f * tau + 1))); [apply Rmult_le_compat_l; auto; apply Rmin_l|]. rewrite <- V1.
      apply (Rmult_le_reg_r (f * tau + 1)); [lra|]. replace (vnorm ng * vnorm ng * (s_extra s / (f * tau + 1)) * (f * tau + 1)) with (s_extra s * vnorm ng * vnorm ng) by (field; lra).
      apply Rmult_le_compat_l; [apply Rmult_le_pos; lra | lra].
    - apply Rle_trans with (sumsq ng * / (f * f + mu)); [apply Rmult_le_compat_l; auto; apply Rmin_r|]. unfold Rdiv. lra. }
  assert (HP2 : grow * dl_rate (s_extra s) * s_cost s <= 2 * vdot d ng - sumsq (mapply A d)).
  { eapply Rle_trans; [|exact HP1]. replace (grow * dl_rate (s_extra s) * s_cost s) with (grow * s_cost s * dl_rate (s_extra s)) by ring. apply Rmult_le_compat_r; auto. }
  split; auto. split; [assert (eta * (grow * dl_rate (s_extra s) * s_cost s) <= eta * (2 * vdot d ng - sumsq (mapply A d))) by (apply Rmult_le_compat_l; lra); lra|].
  unfold dogleg_radius in Ee. rnin Ee. destruct I3 as [(I4 & I5 & I6)|(I4 & I5 & I6)].
  - assert (B1 : Rltb q (Rlit 1 4) = false) by (apply Rltb_no; unfold Rlit; lra). assert (B2 : Rltb (Rlit 3 4) q = true) by (apply Rltb_ok; unfold Rlit; lra). rewrite B1, B2 in Ee.
    assert (Hge : s_extra s <= s_extra s') by (rewrite Ee; apply Rmax_l). split; [left; exists A, d, prop, c, r, q; auto | lra].
  - assert (Hpx : 0 < s_extra s'). { rewrite Ee. destruct (Rltb q _); [unfold Rlit; lra|]. destruct (Rltb _ q); [eapply Rlt_le_trans; [exact Hx | apply Rmax_l] | auto]. }
    split; auto. right. destruct (inside_zero s A ng Hin EA ET) as (Z1 & Z2); auto.
    assert (Pdr' : 0 < dl_rate (s_extra s)) by (unfold dl_rate; fold mu; apply Rmin_pos; [apply Rdiv_lt_0_compat; lra | apply Rinv_0_lt_compat; auto]).
    pose proof (sumsq_nonneg ng). rewrite I4 in HP1. nra.
Qed.
End Trust.
