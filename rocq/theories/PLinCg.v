(* Gauss-Newton with conjugate gradients on linear least-squares problems. *)
From Coq Require Import List Arith Bool ZArith Lia Permutation Reals Lra Psatz.
From Verif Require Import Num NumR Py Arr MLayout MAssign MNoise MSparse MFactor MGraph MLinear MSolver SpecLayout SpecTree SpecAssign SpecGraph SpecSparse SpecDeriv SpecSolver SpecOrder SpecInv SpecLin SpecCgLin.
From Verif Require Import PBase PLayout PAssign PAssign2 PStack PGraph PGraph2 PGraph3 PGraph4 PVec PSparse PLinear PCg PCgConv PJac PGraph5 PLayout2 POrder PHold PExGraph PSolver PSolver2 PInv PTotal PSolverR PLin PLinDl.
Import ListNotations.
Local Open Scope R_scope.

(* ---- the inexact solution is a descent direction ---- *)
Lemma cg_descent (A : coo R) rhs lambd it (tol : nat -> R) : coo_ok A -> 0 <= lambd -> length rhs = fst (m_shape A) -> no_zero_column A ->
  exists x, cg_solve tol A (mapply (transpose A) rhs) lambd it = Ok x /\ length x = snd (m_shape A) /\
    sumsq (vsub (mapply (transpose A) rhs) (cg_op A lambd x)) <= tol it * tol it * sumsq (mapply (transpose A) rhs) /\
    sumsq (mapply A x) <= vdot x (mapply (transpose A) rhs) /\
    sumsq (vsub (mapply A x) rhs) + sumsq (mapply A x) <= sumsq rhs /\
    (Rabs (tol it) < 1 -> mapply (transpose A) rhs <> vzero (snd (m_shape A)) -> 0 < vdot x (mapply (transpose A) rhs)).
Proof.
  intros HA Hl Hr Hc. destruct (cg_converges A rhs lambd it tol HA Hl Hr Hc) as (x & E1 & _ & Hx & Hres & Hgal). set (c := mapply (transpose A) rhs) in *.
  exists x. do 3 (split; auto). assert (Hf : vdot x (cg_op A lambd x) = sumsq (mapply A x) + lambd * diag_form A x x) by (rewrite cg_form, sumsq_dot by auto; auto).
  pose proof (Rmult_le_pos _ _ Hl (diag_form_nonneg A x)) as Hd. assert (Hle : sumsq (mapply A x) <= vdot x c) by (rewrite Hgal, Hf; lra).
  split; auto. split.
  - rewrite sumsq_sub by (rewrite mapply_length; auto). rewrite mapply_adjoint by auto. fold c. lra.
  - intros Ht Hnz. pose proof (sumsq_nonneg (mapply A x)) as H0. destruct (Rlt_le_dec 0 (vdot x c)) as [|Hz]; auto. exfalso. apply Hnz.
    assert (Hz0 : vdot x (cg_op A lambd x) = 0) by lra. destruct (cg_consistent A lambd rhs x HA Hl Hr Hx Hz0) as (Hf0 & _).
    rewrite Hf0 in Hres. assert (Hc0 : length c = snd (m_shape A)) by apply mapply_length.
    assert (Hs : sumsq (vsub c (vzero (snd (m_shape A)))) = sumsq c).
    { rewrite sumsq_sub by (rewrite vzero_length; auto). rewrite vdot_zero_r, (sumsq_dot (vzero _)), vdot_zero_r. lra. }
    rewrite Hs in Hres. assert (Ht2 : tol it * tol it < 1).
    { apply Rabs_def2 in Ht. nra. }
    pose proof (sumsq_nonneg c) as Hsc. assert (Hsc0 : sumsq c = 0) by nra. apply sumsq_zero in Hsc0. rewrite Hc0 in Hsc0. auto.
Qed.

Lemma tp_inexact eta k : forall i, tolerance_product (inexact_tolerance eta) i k * INR (fact (i + k)) = eta ^ k * INR (fact i).
Proof.
  induction k as [|k IH]; intros i; cbn [tolerance_product pow].
  - rewrite Nat.add_0_r. lra.
  - replace (i + S k)%nat with (S i + k)%nat by lia. rewrite Rmult_assoc, IH. unfold inexact_tolerance. rn. cbn [fact]. rewrite mult_INR.
    replace (Rlit (Z.of_nat (i + 1)) 1) with (INR (S i)). 2:{ rewrite INR_IZR_INZ. unfold Rlit. replace (i + 1)%nat with (S i) by lia. field. }
    pose proof (not_0_INR (S i) ltac:(lia)). field. auto.
Qed.
Lemma tp_const t k : forall i, tolerance_product (fun _ => t) i k = t ^ k.
Proof. induction k as [|k IH]; intros i; cbn [tolerance_product pow]; auto. rewrite IH. auto. Qed.

Section Lin.
Variable E : env R.
Let C := e_cls E.
Variable fs : list (factor R).
Variable g : graph R.
Hypothesis LP : linear_problem E fs.
Hypothesis CO : classes_ok C.
Hypothesis Hok : forall f, In f fs -> factor_ok f.
Hypothesis Hg : is_graph E fs g.
Hypothesis Hne : fs <> [].
Hypothesis Hrd : total residual_dim fs <> 0%nat.
Hypothesis Hws : well_shaped E fs.
Let L := graph_layout E fs true.
Let n := l_dim L.
Let m := total residual_dim fs.
Notation fresh := (fresh E fs g).

(* the Jacobian is the same everywhere *)
Lemma jac_same s A s' : fresh s -> compute_whitened_residual_jacobian E g (s_assign s) (s_res s) = Ok A -> fresh s' ->
  compute_whitened_residual_jacobian E g (s_assign s') (s_res s') = Ok A.
Proof.
  assert (Hl : forall u, fresh u -> length (s_res u) = m).
  { intros u (Hcur & val & Ha). destruct (cost_total E CO fs g Hok Hg Hne Hws _ (ex_intro _ val Ha)) as (c2 & r2 & E2 & L2). rewrite Hcur in E2. injection E2 as <- <-. auto. }
  intros Hf EA Hf'. pose proof (Hl s Hf) as H1. pose proof (Hl s' Hf') as H2. destruct Hf as (_ & val & Ha). destruct Hf' as (_ & val' & Ha').
  rewrite <- EA. apply (lin_jacobian E fs g LP CO Hok Hg Hrd Hws _ val' _ val); auto.
Qed.

Variable tol : nat -> R.
Definition advances (s s' : sstate R) : Prop := exists b d, gn_update E (cg_solve tol) g s = Ok (b, d, s_assign s') /\
  compute_cost E g (s_assign s') = Ok (s_cost s', s_res s') /\ s_iter s' = S (s_iter s).
Lemma gn_advances cfg s s' : gn_step E cfg (cg_solve tol) g s = Ok s' -> advances s s'.
Proof.
  intros H. unfold gn_step in H. apply bind_ok in H. destruct H as (((b & d) & a') & Eu & H). apply bind_ok in H. destruct H as ((c & r) & Ec & H).
  apply bind_ok in H. destruct H as (conv & _ & H). injection H as <-. exists b, d. cbn. rewrite Nat.add_1_r. auto.
Qed.
Lemma fixed_advances it s s' : fixed_step E it (cg_solve tol) g s = Ok s' -> advances s s'.
Proof.
  intros H. unfold fixed_step in H. apply bind_ok in H. destruct H as (((b & d) & a') & Eu & H). apply bind_ok in H. destruct H as ((c & r) & Ec & H).
  injection H as <-. exists b, d. cbn. rewrite Nat.add_1_r. auto.
Qed.

Lemma neg_gradient (A : coo R) r : coo_ok A -> length r = fst (m_shape A) -> vneg (mapply (transpose A) r) = mapply (transpose A) (vneg r).
Proof.
  intros HA Hr. assert (Hn : length (vneg r) = fst (m_shape A)) by (unfold vneg; rewrite map_length; auto).
  apply (vec_ext (snd (m_shape A))); [unfold vneg; rewrite map_length; apply mapply_length | apply mapply_length|].
  intros y Hy. rewrite vdot_neg_r, <- !mapply_adjoint by auto. rewrite vdot_neg_r. auto.
Qed.

Lemma cg_lin s s' A : fresh s -> compute_whitened_residual_jacobian E g (s_assign s) (s_res s) = Ok A -> no_zero_column A -> advances s s' ->
  fresh s' /\ s_cost s' <= s_cost s /\
  sumsq (mapply (transpose A) (s_res s')) <= tol (s_iter s) * tol (s_iter s) * sumsq (mapply (transpose A) (s_res s)).
Proof.
  intros Hf EA Hc (b & d & Hu & Ec & Hi). destruct (fresh_shapes E fs g LP CO Hok Hg Hne Hrd Hws s A Hf EA) as (HA & Hsh & Hm).
  assert (Hm' : length (s_res s) = fst (m_shape A)) by (rewrite Hsh; auto).
  unfold gn_update in Hu. rewrite EA in Hu. cbn [bind] in Hu. rewrite matmul_mapply in Hu by (auto using transpose_ok). cbn [bind] in Hu.
  rewrite neg_gradient in Hu by auto. assert (Hn : length (vneg (s_res s)) = fst (m_shape A)) by (unfold vneg; rewrite map_length; auto).
  change (n0 (T := R)) with 0 in Hu.
  destruct (cg_descent A (vneg (s_res s)) 0 (s_iter s) tol HA ltac:(lra) Hn Hc) as (x & Ex & Hx & Hres & _ & Hdec & _).
  rewrite Ex in Hu. cbn [bind] in Hu. apply bind_ok in Hu. destruct Hu as (a' & Er & Hu). injection Hu as _ _ Ea. subst a'.
  rewrite Hsh in Hx. destruct (lin_move E fs g LP CO Hok Hg Hne Hrd Hws s A x Hf EA Hx) as (a2 & c2 & r2 & val2 & Er2 & Ec2 & Hh2 & Hc2 & Hr2 & _).
  rewrite (ig_local _ _ _ Hg) in Er. fold C L in Er. fold C L in Er2. rewrite Er in Er2. injection Er2 as <-. rewrite Ec in Ec2. injection Ec2 as Hcs Hrs.
  destruct Hf as (Hcur & val & Ha). pose proof (cost_parts E g _ _ _ Hcur) as (_ & Hcost).
  assert (LA : forall v, length (mapply A v) = m) by (intros v; rewrite mapply_length, Hsh; auto).
  split; [split; [exact Ec | exists val2; auto]|]. split.
  - rewrite vsub_neg_add in Hdec by (rewrite LA; auto). rewrite vadd_comm, <- Hr2, <- Hc2 in Hdec. pose proof (sumsq_nonneg (mapply A x)) as H0.
    assert (Hneg : sumsq (vneg (s_res s)) = s_cost s) by (rewrite Hcost, !sumsq_dot, vdot_neg_r, vdot_comm, vdot_neg_r; lra). lra.
  - rewrite <- neg_gradient in Hres by auto.
    assert (Hlen : length (mapply (transpose A) (s_res s)) = snd (m_shape A)) by apply mapply_length.
    assert (Hnx : sumsq (vneg (mapply (transpose A) (s_res s))) = sumsq (mapply (transpose A) (s_res s))) by (rewrite !sumsq_dot, vdot_neg_r, vdot_comm, vdot_neg_r; lra).
    rewrite Hnx in Hres.
    assert (Hg' : mapply (transpose A) (s_res s') = vneg (vsub (vneg (mapply (transpose A) (s_res s))) (cg_op A 0 x))).
    { assert (Hxs : length x = snd (m_shape A)) by (rewrite Hsh; auto). pose proof (cg_op_length A 0 x Hxs) as Hcl.
      assert (Hvn : length (vneg (mapply (transpose A) (s_res s))) = snd (m_shape A)) by (unfold vneg; rewrite map_length; auto).
      assert (Hsl : length (vsub (vneg (mapply (transpose A) (s_res s))) (cg_op A 0 x)) = snd (m_shape A)) by (rewrite vsub_length; congruence).
      assert (Hlr' : length (s_res s') = fst (m_shape A)) by (rewrite Hrs, Hr2, vadd_length; rewrite ?LA; auto; rewrite Hsh; auto).
      apply (vec_ext (snd (m_shape A))); [apply mapply_length | unfold vneg at 1; rewrite map_length; auto|].
      intros y Hy. rewrite vdot_neg_r, vdot_sub_r by congruence. rewrite cg_form by auto. rewrite vdot_neg_r, <- !mapply_adjoint by auto.
      rewrite Hrs, Hr2, vdot_add_r by (rewrite LA; auto). lra. }
    rewrite Hg'. rewrite sumsq_dot, vdot_neg_r, vdot_comm, vdot_neg_r, <- sumsq_dot. lra.
Qed.

Lemma cg_chain (step : sstate R -> result (sstate R)) A s0 : (forall s s', step s = Ok s' -> advances s s') ->
  fresh s0 -> compute_whitened_residual_jacobian E g (s_assign s0) (s_res s0) = Ok A -> no_zero_column A ->
  forall k s s', fresh s -> iterate k step s = Ok s' ->
  fresh s' /\ s_cost s' <= s_cost s /\ s_iter s' = (s_iter s + k)%nat /\
  sumsq (mapply (transpose A) (s_res s')) <= tolerance_product tol (s_iter s) k * tolerance_product tol (s_iter s) k * sumsq (mapply (transpose A) (s_res s)).
Proof.
  intros Hst Hf0 EA0 Hc. induction k as [|k IH]; intros s s' Hf H.
  - injection H as <-. cbn [tolerance_product]. split; auto. split; [lra|]. split; [lia | lra].
  - cbn in H. apply bind_ok in H. destruct H as (s1 & H1 & H2). pose proof (Hst _ _ H1) as Hadv. pose proof Hadv as (_ & _ & _ & _ & Hi).
    pose proof (jac_same s0 A s Hf0 EA0 Hf) as EA. destruct (cg_lin s s1 A Hf EA Hc Hadv) as (Hf1 & Hc1 & Hg1).
    destruct (IH s1 s' Hf1 H2) as (Hf' & Hc' & Hi' & Hg').
    split; auto. split; [lra|]. split; [lia|]. cbn [tolerance_product]. rewrite Hi in Hg'.
    set (t := tol (s_iter s)) in *. set (q := tolerance_product tol (S (s_iter s)) k) in *.
    replace (t * q * (t * q)) with ((q * q) * (t * t)) by ring. rewrite Rmult_assoc. eapply Rle_trans; [exact Hg'|]. apply Rmult_le_compat_l; [nra | auto].
Qed.

(* a small gradient means a small excess of the cost *)
Lemma gap s A z valz cz rz sigma : fresh s -> compute_whitened_residual_jacobian E g (s_assign s) (s_res s) = Ok A ->
  holds E fs z valz -> compute_cost E g z = Ok (cz, rz) -> 0 < sigma -> (forall y, length y = n -> sigma * sumsq y <= sumsq (mapply A y)) ->
  s_cost s <= cz + sumsq (mapply (transpose A) (s_res s)) / sigma.
Proof.
  intros Hf EA Hz Ez Hs Hb. destruct (fresh_shapes E fs g LP CO Hok Hg Hne Hrd Hws s A Hf EA) as (HA & Hsh & Hm). destruct Hf as (Hcur & val & Ha).
  pose proof (cost_parts E g _ _ _ Hcur) as (Hw & Hcost). pose proof (cost_parts E g _ _ _ Ez) as (Hwz & Hcz).
  destruct (lin_residual E fs g LP CO Hok Hg Hne Hrd Hws (s_assign s) val z valz _ _ (s_res s) A Ha Hz Hm Hw Hwz EA) as (_ & _ & _ & Hrz).
  pose proof (held_length E fs LP CO _ _ Ha : _ = n) as La. pose proof (held_length E fs LP CO _ _ Hz : _ = n) as Lz.
  set (e := vsub (as_storage z) (as_storage (s_assign s))) in *. assert (Le : length e = n) by (unfold e; rewrite vsub_length; congruence).
  specialize (Hb e Le). set (gr := mapply (transpose A) (s_res s)) in *.
  assert (Lg : length gr = n) by (unfold gr; rewrite mapply_length; cbn; rewrite Hsh; auto).
  rewrite Hcz, Hrz, sumsq_add by (rewrite mapply_length, Hsh; auto). rewrite (vdot_comm (s_res s)), mapply_adjoint by (auto; rewrite Hsh; auto). fold gr. rewrite Hcost.
  pose proof (sumsq_nonneg (vadd e (vscale (/ sigma) gr))) as H0. rewrite sumsq_add in H0 by (rewrite vscale_length; congruence). rewrite sumsq_scale, vdot_scale_r in H0.
  assert (Hi : sigma * / sigma = 1) by (field; lra). assert (H1 : 0 <= sigma * (sumsq e + 2 * (/ sigma * vdot e gr) + / sigma * (/ sigma * sumsq gr))) by (apply Rmult_le_pos; lra).
  replace (sigma * (sumsq e + 2 * (/ sigma * vdot e gr) + / sigma * (/ sigma * sumsq gr))) with (sigma * sumsq e + 2 * vdot e gr + sumsq gr / sigma) in H1 by (field; lra).
  lra.
Qed.
End Lin.
