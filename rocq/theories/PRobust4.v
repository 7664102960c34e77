(* Affine residuals under Gaussian or Huber noise: one Gauss-Newton step removes a fixed share of the excess loss. *)
From Coq Require Import List Arith Bool Lia ZArith Permutation Reals Lra Psatz.
From Verif Require Import Num NumR Py Arr MLayout MAssign MNoise MSparse MFactor MGraph MLinear MSolver SpecLayout SpecTree SpecAssign SpecGraph SpecSparse SpecDeriv SpecNoise SpecSolver SpecOrder SpecInv SpecLin SpecCgLin SpecLoss SpecRobust.
From Verif Require Import PBase PLayout PTree PAssign PAssign2 PAssign3 PStack PGraph PGraph2 PGraph3 PGraph4 PVec PSparse PLinear PCg PJac PGraph5 PLayout2 POrder PHold PExGraph PSolver PSolver2 PSolverR PDescent PInv PTotal PDeriv PNoise PLoss PExLoss PLin PLinDl PLinCg PNear PLinTr PHalt PLocal PRobust PRobust2 PRobust3.
Import ListNotations.
Local Open Scope R_scope.

Section Robust.
Variable E : env R.
Let C := e_cls E.
Variable fs : list (factor R).
Variable g : graph R.
Hypothesis RP : robust_problem E fs.
Hypothesis CO : classes_ok C.
Hypothesis Hok : forall f, In f fs -> factor_ok f.
Hypothesis Hg : is_graph E fs g.
Hypothesis Hne : fs <> [].
Hypothesis Hrd : total residual_dim fs <> 0%nat.
Hypothesis Hws : well_shaped E fs.
Let L := graph_layout E fs true.
Let n := l_dim L.
Let m := total residual_dim fs.
Notation fresh := (fresh E fs g).
(* somewhere to start from *)
Variables (sr : sstate R) (valr : var -> pytree R) (Ar : coo R).
Hypothesis Hfr : fresh sr.
Hypothesis Hhr : holds E fs (s_assign sr) valr.
Hypothesis EAr : compute_whitened_residual_jacobian E g (s_assign sr) (s_res sr) = Ok Ar.

Lemma ref_legal : legal E fs valr. Proof. apply (holds_legal E fs CO _ _ Hhr). Qed.
Lemma jac_of s : fresh s -> exists A, compute_whitened_residual_jacobian E g (s_assign s) (s_res s) = Ok A /\ coo_ok A /\ m_shape A = (m, n) /\ length (s_res s) = m /\ compute_whitened_residual_vector E g (s_assign s) = Ok (s_res s).
Proof.
  intros (Hc & val & Ha). pose proof (cost_parts E g _ _ _ Hc) as (Hw & _).
  destruct (cost_total E CO fs g Hok Hg Hne Hws (s_assign s) (ex_intro _ val Ha)) as (c0 & r0 & Ec & Hl0). assert (Hm : length (s_res s) = m) by (rewrite Hc in Ec; injection Ec as <- <-; auto).
  destruct (jacobian_total E CO fs g Hok Hg Hrd Hws s) as (A & EA & HA & Hsh); [split; [exists val; auto | auto]|]. exists A. auto.
Qed.
Notation ngrad A s := (mapply (transpose A) (vneg (s_res s))).

Lemma ngrad_dot A s x : coo_ok A -> m_shape A = (m, n) -> length (s_res s) = m -> length x = n -> vdot (mapply A x) (s_res s) = - vdot x (ngrad A s).
Proof.
  intros HA Hsh Hm Hx. rewrite <- (mapply_adjoint A x (vneg (s_res s)) HA); [rewrite vdot_neg_r; lra | rewrite Hsh; auto | unfold vneg; rewrite map_length, Hsh; auto].
Qed.
Lemma bounds : exists sigma F, 0 < sigma <= F /\ (forall s A, fresh s -> compute_whitened_residual_jacobian E g (s_assign s) (s_res s) = Ok A -> forall x, length x = n -> sumsq (mapply A x) <= F * sumsq x) /\
  (forall x, length x = n -> bare_form E fs valr x <= F * sumsq x) /\
  (forall x, length x = n -> exists p, length p = n /\ sigma * sumsq p <= bare_form E fs valr x /\
     forall s A, fresh s -> compute_whitened_residual_jacobian E g (s_assign s) (s_res s) = Ok A -> mapply A p = mapply A x).
Proof.
  destruct (jac_of sr Hfr) as (A0 & EA0 & HA & Hsh & Hm & Hw). rewrite EAr in EA0. injection EA0 as <-.
  destruct (frobenius Ar HA) as (F0 & HF0 & HF1 & _). destruct (bounded_below Ar HA) as (sg & Hsg & Hbb). rewrite Hsh in HF1, Hbb. cbn [snd] in HF1, Hbb.
  destruct (level_modulus (map f_noise fs) (total_loss E fs valr)) as (mu0 & Hmu0 & HM).
  { intros nm Hin. apply in_map_iff in Hin. destruct Hin as (f & <- & Hf). apply (rp_noise _ _ RP f Hf). }
  assert (HD1 : forall s A x, fresh s -> compute_whitened_residual_jacobian E g (s_assign s) (s_res s) = Ok A -> length x = n -> sumsq (mapply A x) <= bare_form E fs valr x).
  { intros s A x Hf EA Hx. destruct (jac_of s Hf) as (A' & EA' & _ & _ & _ & Hw'). destruct Hf as (_ & val & Ha). apply (step_forms E fs g RP CO Hok Hg Hne Hrd Hws valr ref_legal (s_assign s) val (s_res s) A x Ha Hw' EA Hx). }
  assert (HD2 : forall x, length x = n -> mu0 * bare_form E fs valr x <= sumsq (mapply Ar x)).
  { intros x Hx. destruct (step_forms E fs g RP CO Hok Hg Hne Hrd Hws valr ref_legal (s_assign sr) valr (s_res sr) Ar x Hhr Hw EAr Hx) as (_ & _ & _ & H4).
    apply (H4 (total_loss E fs valr) mu0); auto; lra. }
  assert (HDF : forall x, length x = n -> bare_form E fs valr x <= F0 / mu0 * sumsq x).
  { intros x Hx. apply (Rmult_le_reg_l mu0); [lra|]. replace (mu0 * (F0 / mu0 * sumsq x)) with (F0 * sumsq x) by (field; lra). eapply Rle_trans; [apply HD2; auto | apply HF1; auto]. }
  set (F := Rmax sg (F0 / mu0)). assert (HF : sg <= F /\ F0 / mu0 <= F) by (split; [apply Rmax_l | apply Rmax_r]).
  assert (HDF' : forall x, length x = n -> bare_form E fs valr x <= F * sumsq x) by (intros x Hx; eapply Rle_trans; [apply HDF; auto | apply Rmult_le_compat_r; [apply sumsq_nonneg | apply HF]]).
  exists sg, F. split; [lra|]. split; [|split; [exact HDF'|]].
  - intros s A Hf EA x Hx. eapply Rle_trans; [apply (HD1 s A x Hf EA Hx) | auto].
  - intros x Hx. destruct (row_part Ar HA x) as (p & Hp & Ep & Op); [rewrite Hsh; auto|]. rewrite Hsh in Hp. cbn [snd] in Hp. exists p. split; auto. split.
    + eapply Rle_trans; [apply Hbb; auto|]. rewrite Ep. apply (HD1 sr Ar x Hfr EAr Hx).
    + intros s A Hf EA. destruct (jac_of s Hf) as (A' & EA' & HA' & Hsh' & _). rewrite EA in EA'. injection EA' as <-.
      assert (Hd : length (vsub p x) = n) by (rewrite vsub_length; congruence).
      assert (Z0 : sumsq (mapply Ar (vsub p x)) = 0).
      { rewrite (PLocal.mapply_sub Ar HA) by (rewrite Hsh; auto). rewrite Ep. apply self_distance. }
      assert (ZD : bare_form E fs valr (vsub p x) <= 0) by (apply (Rmult_le_reg_l mu0); [lra|]; rewrite Rmult_0_r, <- Z0; apply HD2; auto).
      assert (ZA : sumsq (mapply A (vsub p x)) = 0) by (apply Rle_antisym; [eapply Rle_trans; [apply (HD1 s A _ Hf EA Hd) | exact ZD] | apply sumsq_nonneg]).
      apply sumsq_zero in ZA. rewrite (PLocal.mapply_sub A HA') in ZA by (rewrite Hsh'; auto). rewrite vsub_length in ZA by (rewrite !mapply_length; auto). rewrite mapply_length in ZA.
      apply (nth_ext' _ _ 0); [rewrite !mapply_length; auto|]. intros i Hi. pose proof (f_equal (fun v => nth i v 0) ZA) as Hn. cbn beta in Hn.
      rewrite nth_vsub in Hn by (rewrite !mapply_length; auto). unfold vzero in Hn. rewrite nth_repeat in Hn. rn. change (@n0 R NumR) with 0 in Hn. lra.
Qed.

Section Rate.
Variables (sigma F : R).
Hypothesis HsF : 0 < sigma <= F.
Hypothesis Hup : forall s A, fresh s -> compute_whitened_residual_jacobian E g (s_assign s) (s_res s) = Ok A -> forall x, length x = n -> sumsq (mapply A x) <= F * sumsq x.
Hypothesis Hlow : forall x, length x = n -> exists p, length p = n /\ sigma * sumsq p <= bare_form E fs valr x /\
     forall s A, fresh s -> compute_whitened_residual_jacobian E g (s_assign s) (s_res s) = Ok A -> mapply A p = mapply A x.
Variables (l mu : R).
Hypothesis Hmu : 0 < mu <= 1.
Hypothesis HM : modulus fs l mu.

(* the excess of the loss is bounded by the gradient *)
Lemma loss_excess s val A z valz : fresh s -> holds E fs (s_assign s) val -> compute_whitened_residual_jacobian E g (s_assign s) (s_res s) = Ok A -> holds E fs z valz ->
  total_loss E fs val <= l -> total_loss E fs valz <= l -> 2 * mu * sigma * (total_loss E fs val - total_loss E fs valz) <= sumsq (ngrad A s).
Proof.
  intros Hf Ha EA Hz Hla Hlz. destruct (jac_of s Hf) as (A' & EA' & HA & Hsh & Hm & Hw). rewrite EA in EA'. injection EA' as <-.
  pose proof (pl_held_length E fs (rp_plain _ _ RP) CO _ _ Ha : _ = n) as La. pose proof (pl_held_length E fs (rp_plain _ _ RP) CO _ _ Hz : _ = n) as Lz.
  set (x := vsub (as_storage z) (as_storage (s_assign s))). assert (Hx : length x = n) by (unfold x; rewrite vsub_length; congruence).
  assert (Es : as_storage z = vadd (as_storage (s_assign s)) x).
  { apply (nth_ext' _ _ 0); [rewrite vadd_length; congruence|]. intros i Hi. rewrite nth_vadd by congruence. unfold x. rewrite nth_vsub by congruence. lra. }
  destruct (step_forms E fs g RP CO Hok Hg Hne Hrd Hws valr ref_legal (s_assign s) val (s_res s) A x Ha Hw EA Hx) as (_ & _ & H3 & _).
  specialize (H3 l mu HM z valz Hz Es Hla Hlz). destruct (Hlow x Hx) as (p & Hp & Hps & HpA). rewrite <- (HpA s A Hf EA) in H3. rewrite (ngrad_dot A s p) in H3 by auto.
  assert (Hgl : length (ngrad A s) = n) by (rewrite mapply_length; cbn; rewrite Hsh; auto). set (k := mu * sigma). assert (Hk : 0 < k) by (apply Rmult_lt_0_compat; lra).
  pose proof (sumsq_nonneg (vsub (vscale k p) (ngrad A s))) as H0. rewrite sumsq_sub in H0 by (rewrite vscale_length; congruence). rewrite vdot_scale_l, (sumsq_dot (vscale k p)), vdot_scale_l, vdot_scale_r, <- sumsq_dot in H0.
  assert (H4 : mu * (sigma * sumsq p) <= mu * bare_form E fs valr x) by (apply Rmult_le_compat_l; lra).
  set (D := bare_form E fs valr x) in *. set (V := vdot p (ngrad A s)) in *. set (G := sumsq (ngrad A s)) in *. set (P := sumsq p) in *. set (la := total_loss E fs val) in *. set (lz := total_loss E fs valz) in *.
  assert (H5 : la - lz <= V - k * P / 2) by (unfold k; lra). replace (2 * mu * sigma * (la - lz)) with (2 * k * (la - lz)) by (unfold k; ring).
  apply Rle_trans with (2 * k * (V - k * P / 2)); [apply Rmult_le_compat_l; lra|]. lra.
Qed.

(* a linear solver that takes a fixed part of the gradient *)
Variable lin : linear_solver (T := R).
Variable kappa : R.
Hypothesis Hkap : 0 < kappa <= / F.
Hypothesis Hlin : forall s A, fresh s -> compute_whitened_residual_jacobian E g (s_assign s) (s_res s) = Ok A ->
  exists x, lin A (ngrad A s) 0 (s_iter s) = Ok x /\ length x = n /\ kappa * sumsq (ngrad A s) <= vdot x (ngrad A s) /\ sumsq (mapply A x) <= vdot x (ngrad A s).
Definition moved (s s' : sstate R) : Prop := exists b d, gn_update E lin g s = Ok (b, d, s_assign s') /\ compute_cost E g (s_assign s') = Ok (s_cost s', s_res s').

Lemma share_range : 0 < mu * sigma * kappa <= 1.
Proof.
  assert (H1 : sigma * kappa <= 1). { apply Rle_trans with (F * / F); [apply Rmult_le_compat; lra | right; apply Rinv_r; lra]. }
  assert (0 < sigma * kappa) by (apply Rmult_lt_0_compat; lra). rewrite Rmult_assoc. split; [apply Rmult_lt_0_compat; lra|]. nra.
Qed.
Lemma loss_falls s val s' : fresh s -> holds E fs (s_assign s) val -> moved s s' ->
  fresh s' /\ exists val', holds E fs (s_assign s') val' /\ total_loss E fs val' <= total_loss E fs val /\
   forall z valz, holds E fs z valz -> total_loss E fs val <= l -> total_loss E fs valz <= l ->
     total_loss E fs val' - total_loss E fs valz <= total_loss E fs val - total_loss E fs valz - mu * sigma * kappa * (total_loss E fs val - total_loss E fs valz).
Proof.
  intros Hf Ha (b & d & Hu & Ec). destruct (jac_of s Hf) as (A & EA & HA & Hsh & Hm & Hw). assert (Hm' : length (s_res s) = fst (m_shape A)) by (rewrite ?Hsh; auto).
  unfold gn_update in Hu. rewrite EA in Hu. cbn [bind] in Hu. rewrite matmul_mapply in Hu by (auto using transpose_ok). cbn [bind] in Hu.
  rewrite neg_gradient in Hu by auto. change (n0 (T := R)) with 0 in Hu.
  destruct (Hlin s A Hf EA) as (x & Ex & Hx & Hk1 & Hk2). rewrite Ex in Hu. cbn [bind] in Hu. apply bind_ok in Hu. destruct Hu as (a' & Er & Hu). injection Hu as _ _ Ea. subst a'.
  destruct (pl_retract E fs (rp_plain _ _ RP) CO Hws (s_assign s) val x Ha Hx) as (a2 & val2 & Er2 & Hh2 & Hst2). rewrite (ig_local _ _ _ Hg) in Er. rewrite Er in Er2. injection Er2 as <-.
  split; [split; [exact Ec | exists val2; auto]|]. exists val2. split; auto.
  destruct (step_forms E fs g RP CO Hok Hg Hne Hrd Hws valr ref_legal (s_assign s) val (s_res s) A x Ha Hw EA Hx) as (_ & H2 & _ & _). specialize (H2 _ _ Hh2 Hst2). rewrite (ngrad_dot A s x) in H2 by auto.
  pose proof (sumsq_nonneg (ngrad A s)) as HG. assert (0 <= kappa * sumsq (ngrad A s)) by (apply Rmult_le_pos; lra).
  split; [lra|]. intros z valz Hz Hla Hlz. pose proof (loss_excess s val A z valz Hf Ha EA Hz Hla Hlz) as Hex.
  assert (kappa * (2 * mu * sigma * (total_loss E fs val - total_loss E fs valz)) <= kappa * sumsq (ngrad A s)) by (apply Rmult_le_compat_l; lra). lra.
Qed.
End Rate.

(* Cholesky factorisation, with its damping *)
Lemma cholmod_part F s A : 0 < F -> (forall x, length x = n -> sumsq (mapply A x) <= F * sumsq x) -> fresh s -> compute_whitened_residual_jacobian E g (s_assign s) (s_res s) = Ok A ->
  exists x, cholmod_solve A (ngrad A s) 0 (s_iter s) = Ok x /\ length x = n /\ / (F + 1 / 100000) * sumsq (ngrad A s) <= vdot x (ngrad A s) /\ sumsq (mapply A x) <= vdot x (ngrad A s).
Proof.
  intros HF HFA Hf EA. destruct (jac_of s Hf) as (A' & EA' & HA & Hsh & Hm & Hw). rewrite EA in EA'. injection EA' as <-.
  assert (Hgl : length (ngrad A s) = n) by (rewrite mapply_length; cbn; rewrite Hsh; auto).
  destruct (cholmod_solve_ok A (ngrad A s) 0 (s_iter s) HA) as (x & Ex & Hx); [unfold Rlit; lra | rewrite Hsh; auto|].
  exists x. split; auto. split; [rewrite (proj1 Hx), Hsh; auto|]. replace (0 + Rlit 1 100000) with (1 / 100000) in Hx by (unfold Rlit; lra).
  destruct (exact_lower A (1 / 100000) F (ngrad A s) x HA ltac:(lra) HF) as (H1 & H2); [rewrite Hsh; auto | rewrite Hsh; auto | auto|]. split; auto.
  apply (Rmult_le_reg_l (F + 1 / 100000)); [lra|]. rewrite <- Rmult_assoc, Rinv_r, Rmult_1_l by lra. auto.
Qed.
End Robust.
