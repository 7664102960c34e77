(* Bundled statements and concrete instances: Gauss-Newton with conjugate gradients on linear problems. *)
From Coq Require Import List Arith Bool ZArith Lia Permutation Reals Lra.
From Verif Require Import Num NumR Py Arr MLayout MAssign MNoise MSparse MFactor MGraph MLinear MSolver SpecLayout SpecTree SpecAssign SpecGraph SpecSparse SpecDeriv SpecSolver SpecOrder SpecInv SpecLin SpecCgLin.
From Verif Require Import PBase PLayout PTree PVec PSparse PAssign PAssign2 PGraph PGraph2 PHold PExGraph PSolver PSolver2 PSolverR PInv PTotal PLin PLinDl PLinCg Ex ExG ExS PExInv PExOrder PExSym PExLin PExLinDl.
Import ListNotations.
Local Open Scope R_scope.

Lemma inexact_descent (A : coo R) rhs lambd it (tol : nat -> R) : coo_ok A -> 0 <= lambd -> length rhs = fst (m_shape A) -> no_zero_column A ->
  exists c x Ax, matmul (transpose A) rhs = Ok c /\ cg_solve tol A c lambd it = Ok x /\ matmul A x = Ok Ax /\
    sumsq Ax <= vdot x c /\ sumsq (vsub Ax rhs) + sumsq Ax <= sumsq rhs /\
    (Rabs (tol it) < 1 -> c <> vzero (snd (m_shape A)) -> 0 < vdot x c).
Proof.
  intros HA Hl Hr Hc. destruct (cg_descent A rhs lambd it tol HA Hl Hr Hc) as (x & E1 & Hx & _ & H1 & H2 & H3).
  exists (mapply (transpose A) rhs), x, (mapply A x). split; [apply matmul_mapply; auto using transpose_ok|]. split; auto. split; [apply matmul_mapply; auto|]. auto.
Qed.

Lemma products eta t k : tolerance_product (inexact_tolerance eta) 0 k = eta ^ k / INR (fact k) /\ tolerance_product (fun _ => t) 0 k = t ^ k.
Proof.
  split; [|apply tp_const]. pose proof (tp_inexact eta k 0) as H. cbn [Nat.add fact] in H. change (INR 1) with 1 in H.
  pose proof (INR_fact_neq_0 k). apply (Rmult_eq_reg_r (INR (fact k))); auto. rewrite H. field. auto.
Qed.

Lemma linear_inexact E fs g : linear_problem E fs -> well_posed E fs -> graph_make E fs = Ok g ->
  forall (tol : nat -> R) step a val c0 r0 A0, (exists cfg, step = gn_step E cfg (cg_solve tol) g) \/ (exists it, step = fixed_step E it (cg_solve tol) g) ->
  assigns E fs a val -> same_layout (as_layout a) (g_layout g) -> compute_cost E g a = Ok (c0, r0) ->
  compute_whitened_residual_jacobian E g a r0 = Ok A0 -> no_zero_column A0 ->
  exists g0, half_gradient E g (mkState 0 a c0 r0 false 0) g0 /\
  forall k st, runs step k (mkState 0 a c0 r0 false 0) st ->
    exists gk, half_gradient E g st gk /\ sumsq gk <= tolerance_product tol 0 k * tolerance_product tol 0 k * sumsq g0 /\
    current E g st /\ s_cost st <= c0 /\
    forall sigma z valz cz rz, 0 < sigma -> bounded_below sigma A0 -> assigns E fs z valz -> compute_cost E g z = Ok (cz, rz) ->
      s_cost st <= cz + tolerance_product tol 0 k * tolerance_product tol 0 k * sumsq g0 / sigma.
Proof.
  intros LP WP Eg tol step a val c0 r0 A0 Hstep Ha Hs Ec EA Hc. destruct (posed_graph E fs WP) as (Hne & _ & Hrd & Hpd). pose proof WP as [CO Hok Hws _ _]. destruct (made E fs g Hok Eg) as (Hg & _).
  pose proof (lin_holds E fs g WP Eg a val Ha Hs) as Hh. set (s0 := mkState 0 a c0 r0 false 0).
  assert (Hf : fresh E fs g s0) by (split; [exact Ec | exists val; auto]).
  destruct (fresh_shapes E fs g LP CO Hok Hg Hne Hrd Hws s0 A0 Hf EA) as (HA & Hsh & Hm).
  assert (Hm' : length (s_res s0) = fst (m_shape A0)) by (rewrite Hsh; auto).
  exists (mapply (transpose A0) r0). split; [exists A0; split; [exact EA | apply matmul_mapply; auto using transpose_ok]|].
  intros k st Hr. assert (Hadv : forall s s', step s = Ok s' -> advances E g tol s s').
  { destruct Hstep as [(cfg & ->)|(it & ->)]; intros s s' H; [eapply gn_advances | eapply fixed_advances]; eauto. }
  destruct (cg_chain E fs g LP CO Hok Hg Hne Hrd Hws tol step A0 s0 Hadv Hf EA Hc k s0 st Hf (runs_iterate _ _ _ _ Hr)) as (Hf' & Hcost & _ & Hgr).
  cbn [s_iter s0 s_res s_cost] in *. pose proof (jac_same E fs g LP CO Hok Hg Hne Hrd Hws s0 A0 st Hf EA Hf') as EA'.
  destruct (fresh_shapes E fs g LP CO Hok Hg Hne Hrd Hws st A0 Hf' EA') as (_ & _ & Hmk).
  exists (mapply (transpose A0) (s_res st)). split; [exists A0; split; [exact EA' | apply matmul_mapply; [auto using transpose_ok | cbn; rewrite Hsh; auto]]|].
  split; auto. split; [apply Hf'|]. split; auto. intros sigma z valz cz rz Hsg Hbb Hz Ez.
  destruct (update_holds E CO fs z valz Hz) as (z' & Eu & Hz').
  assert (Ez' : compute_cost E g z' = Ok (cz, rz)) by (rewrite <- Ez; apply (cost_values E fs g WP Eg z' z valz); auto; apply holds_assigns; auto).
  pose proof (gap E fs g LP CO Hok Hg Hne Hrd Hws st A0 z' valz cz rz sigma Hf' EA' Hz' Ez' Hsg) as Hgap.
  assert (Hb : forall y, length y = l_dim (graph_layout E fs true) -> sigma * sumsq y <= sumsq (mapply A0 y)).
  { intros y Hy. apply Hbb; [rewrite Hsh; auto | apply matmul_mapply; auto; rewrite Hsh; auto]. }
  specialize (Hgap Hb). eapply Rle_trans; [exact Hgap|]. apply Rplus_le_compat_l. unfold Rdiv. apply Rmult_le_compat_r; auto. apply Rlt_le, Rinv_0_lt_compat; auto.
Qed.

Lemma chain_inexact : exists g c0 r0 A0, graph_make exLE chain_fs = Ok g /\ compute_cost exLE g (scalars [vx; vy] [0; 0]) = Ok (c0, r0) /\
  same_layout (as_layout (scalars (T := R) [vx; vy] [0; 0])) (g_layout g) /\
  compute_whitened_residual_jacobian exLE g (scalars [vx; vy] [0; 0]) r0 = Ok A0 /\ coo_ok A0 /\ no_zero_column A0 /\ bounded_below 1 A0.
Proof.
  do 4 eexists. split; [reflexivity|]. split; [comp; reflexivity|]. split; [repeat split; reflexivity|]. split; [comp; reflexivity|].
  split; [repeat split; comp; repeat constructor|]. split.
  - intros j Hj. assert (Hj' : (j < 2)%nat) by exact Hj. destruct j as [|[|j]]; [| |lia].
    + exists 0%nat. eexists. split; [left; reflexivity|]. unfold Rlit. lra.
    + exists 1%nat. eexists. split; [right; left; reflexivity|]. unfold Rlit. lra.
  - intros y Ay Hy H. destruct y as [|a [|b [|c y]]]; try discriminate Hy. revert H. comp. intros H. injection H as <-. match goal with |- ?x < ?y \/ _ => enough (x <= y) by (destruct H; auto) end.
    pose proof (Rle_0_sqr (b - a)) as P. unfold Rsqr in P. lra.
Qed.
