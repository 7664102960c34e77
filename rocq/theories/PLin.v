(* Linear least-squares problems: the damped normal equations are proximal steps. *)
From Coq Require Import List Arith Bool ZArith Lia Permutation Reals Lra.
From Verif Require Import Num NumR Py Arr MLayout MAssign MNoise MSparse MFactor MGraph MLinear MSolver SpecLayout SpecTree SpecAssign SpecGraph SpecSparse SpecDeriv SpecSolver SpecOrder SpecInv SpecLin.
From Verif Require Import PBase PLayout PTree PAssign PAssign2 PAssign3 PStack PGraph PGraph2 PGraph3 PGraph4 PVec PSparse PLinear PCg PJac PGraph5 PLayout2 POrder PHold PExGraph PSolver PSolver2 PInv PTotal PDeriv PSym PSolverR PExAuto.
Import ListNotations.
Local Open Scope R_scope.

Section Prox.
Variable A : coo R.
Hypothesis HA : coo_ok A.
Let m := fst (m_shape A).
Let n := snd (m_shape A).

Lemma prox mu r c x d : length r = m -> length d = n -> normal_ok A mu c x ->
  (forall y, length y = n -> vdot y c = - vdot (mapply A y) r) ->
  sumsq (vadd r (mapply A x)) + mu * sumsq x + mu * sumsq (vsub d x) <= sumsq (vadd r (mapply A d)) + mu * sumsq d.
Proof.
  intros Hr Hd (Hx & Hn) Hc. fold n in Hx.
  assert (HAx : length (mapply A x) = m) by apply mapply_length. assert (HAd : length (mapply A d) = m) by apply mapply_length.
  assert (Hdot : forall y, length y = n -> vdot (mapply A y) (mapply A x) + mu * vdot y x = - vdot (mapply A y) r).
  { intros y Hy. rewrite <- Hc, <- Hn by auto. rewrite vdot_add_r, vdot_scale_r, <- mapply_adjoint; auto.
    rewrite vscale_length, mapply_length. simpl. auto. }
  pose proof (Hdot x Hx) as E1. pose proof (Hdot d Hd) as E2.
  assert (Hsq : 0 <= sumsq (vsub (mapply A d) (mapply A x))) by apply sumsq_nonneg.
  rewrite !sumsq_dot in *. rewrite ?vdot_add_l, ?vdot_add_r, ?vdot_sub_l, ?vdot_sub_r in * by (rewrite ?vadd_length, ?vsub_length; congruence).
  rewrite (vdot_comm (mapply A x) r) in *. rewrite (vdot_comm (mapply A d) r) in *. rewrite (vdot_comm (mapply A x) (mapply A d)) in *. rewrite (vdot_comm x d) in *.
  nra.
Qed.
End Prox.

(* variables that are plain arrays: storage vectors, distances and retractions *)
Section Plain.
Variable E : env R.
Let C := e_cls E.
Variable fs : list (factor R).
Hypothesis HP : forall v, In v (mentioned fs) -> plain_class (C (v_ty v)).
Hypothesis CO : classes_ok C.
Hypothesis Hws : well_shaped E fs.

Let L := graph_layout E fs true.
Let L' := graph_layout E fs false.
Let n := l_dim L.

Lemma pl_dims v : In v (mentioned fs) -> vdim C true v = vdim C false v.
Proof. intros H. destruct (HP v H) as [H1 _]. unfold vdim, tdim, local_dim. rewrite H1. auto. Qed.
Lemma pl_index : l_index L = l_index L' /\ l_dim L = l_dim L'.
Proof.
  unfold L, L', graph_layout. rewrite !make_layout_closed by apply mentioned_nodup. unfold closed_layout. cbn [l_index l_dim].
  assert (Ho : forall v, In v (order (mentioned fs)) -> vdim C true v = vdim C false v).
  { intros v Hv. apply pl_dims. apply (order_in (mentioned fs)); auto. }
  fold C. split.
  - revert Ho. generalize (order (mentioned fs)) 0%nat. induction l as [|v l IH]; intros k Ho; cbn [place]; auto.
    rewrite Ho by (left; auto). f_equal. apply IH. intros; apply Ho; right; auto.
  - revert Ho. generalize (order (mentioned fs)). induction l as [|v l IH]; intros Ho; cbn [total map list_sum fold_right]; auto.
    rewrite Ho by (left; auto). f_equal. apply IH. intros; apply Ho; right; auto.
Qed.
Lemma pl_block x v : In v (mentioned fs) -> block C L x v = block C L' x v.
Proof.
  intros Hv. unfold block. rewrite (proj1 pl_index). destruct (dict_get (l_index L') v); auto.
  unfold L, L', graph_layout. rewrite !lay_local by apply mentioned_nodup. rewrite pl_dims; auto.
Qed.

(* storage vectors of held assignments *)
Lemma pl_held_blocks a val v : holds E fs a val -> In v (mentioned fs) -> block C L (as_storage a) v = ravel (val v).
Proof. intros Ha Hv. rewrite pl_block by auto. apply (holds_storage E fs CO a val Ha); auto. Qed.
Lemma pl_held_length a val : holds E fs a val -> length (as_storage a) = n.
Proof. intros Ha. unfold n. rewrite (proj2 pl_index). apply (holds_storage E fs CO a val Ha). Qed.

Lemma pl_distance a val b val' : holds E fs a val -> holds E fs b val' ->
  sumsq (vsub (as_storage b) (as_storage a)) = distance2 fs val val'.
Proof.
  intros Ha Hb. pose proof (pl_held_length _ _ Ha). pose proof (pl_held_length _ _ Hb).
  rewrite sumsq_dot. rewrite (vdot_blocks C true (mentioned fs)); try apply mentioned_nodup; try (rewrite vsub_length; [exact H0|congruence]).
  unfold distance2. transitivity (vsum (map (fun v => sumsq (vsub (ravel (val' v)) (ravel (val v)))) (order (mentioned fs)))).
  - f_equal. apply map_ext_in. intros v Hv. apply (order_in (mentioned fs)) in Hv. rewrite sumsq_dot.
    change (make_layout C (mentioned fs) true) with L. unfold vsub at 1 2. rewrite block_zipw.
    rewrite (pl_held_blocks a val), (pl_held_blocks b val') by auto. reflexivity.
  - apply vsum_perm, Permutation_map, order_perm.
Qed.

Lemma pl_retract a val x : holds E fs a val -> length x = n ->
  exists a' val', manifold_retract C a (mkAssign x L) = Ok a' /\ holds E fs a' val' /\ as_storage a' = vadd (as_storage a) x.
Proof.
  intros Ha Hx. destruct (retract_holds E fs CO _ a val x (ws_preserved E fs Hws) Ha (fun _ _ => I) Hx) as (a' & val' & H1 & H2 & H3 & H4).
  exists a', val'. split; auto. split; auto.
  pose proof (pl_held_length _ _ Ha). pose proof (pl_held_length _ _ H3).
  apply (blocks_ext C (mentioned fs) true (mentioned_nodup fs)); auto.
  - rewrite vadd_length by congruence. auto.
  - intros v Hv. change (make_layout C (mentioned fs) true) with L. unfold vadd. rewrite block_zipw.
    rewrite (pl_held_blocks a val), (pl_held_blocks a' val') by auto. destruct (H4 v Hv) as (H5 & _).
    destruct (plain_retract (C (v_ty v)) (HP v Hv) (CO (v_ty v)) (val v) (block C L x v)) as (y & Ey & _ & Hy).
    + apply (holds_legal E fs CO a val Ha); auto.
    + apply (PDeriv.block_length E fs x v); auto.
    + fold L C in H5. rewrite Ey in H5. injection H5 as <-. exact Hy.
Qed.

End Plain.

Section Lin.
Variable E : env R.
Let C := e_cls E.
Variable fs : list (factor R).
Variable g : graph R.
Hypothesis LP : linear_problem E fs.
Hypothesis CO : classes_ok C.
Hypothesis Hok : forall f, In f fs -> factor_ok f.
Hypothesis Hg : is_graph E fs g.
Hypothesis Hne : fs <> [].
Hypothesis Hrd : total residual_dim fs <> 0%nat.
Hypothesis Hws : well_shaped E fs.

Let L := graph_layout E fs true.
Let L' := graph_layout E fs false.
Let n := l_dim L.
Let m := total residual_dim fs.

Lemma lin_dims v : In v (mentioned fs) -> vdim C true v = vdim C false v.
Proof. apply (pl_dims E fs (lp_plain _ _ LP)). Qed.
Lemma lin_index : l_index L = l_index L' /\ l_dim L = l_dim L'.
Proof. apply (pl_index E fs (lp_plain _ _ LP)). Qed.
Lemma lin_block x v : In v (mentioned fs) -> block C L x v = block C L' x v.
Proof. apply (pl_block E fs (lp_plain _ _ LP)). Qed.
Lemma held_blocks a val v : holds E fs a val -> In v (mentioned fs) -> block C L (as_storage a) v = ravel (val v).
Proof. apply (pl_held_blocks E fs (lp_plain _ _ LP) CO). Qed.
Lemma held_length a val : holds E fs a val -> length (as_storage a) = n.
Proof. apply (pl_held_length E fs (lp_plain _ _ LP) CO). Qed.
Lemma held_distance a val b val' : holds E fs a val -> holds E fs b val' ->
  sumsq (vsub (as_storage b) (as_storage a)) = distance2 fs val val'.
Proof. apply (pl_distance E fs (lp_plain _ _ LP) CO). Qed.
Lemma lin_retract a val x : holds E fs a val -> length x = n ->
  exists a' val', manifold_retract C a (mkAssign x L) = Ok a' /\ holds E fs a' val' /\ as_storage a' = vadd (as_storage a) x.
Proof. apply (pl_retract E fs (lp_plain _ _ LP) CO Hws). Qed.

(* the Jacobian does not depend on the values *)
Lemma legal_legal_for val f : legal E fs val -> In f fs -> legal_for E f val.
Proof. intros H Hf v Hv. apply H. apply mentioned_in. eauto. Qed.
Lemma lin_wjacs val val' r r' f o : legal E fs val -> legal E fs val' -> In f fs -> (o + residual_dim f <= m)%nat -> length r = m -> length r' = m ->
  wjacs E val r (f, o) = wjacs E val' r' (f, o).
Proof.
  intros Hl Hl' Hf Ho Hr Hr'. unfold wjacs. cbn [fst].
  rewrite (lp_const _ _ LP f val val' Hf (legal_legal_for _ _ Hl Hf) (legal_legal_for _ _ Hl' Hf)).
  apply map_ext. intros J. pose proof (lp_noise _ _ LP f Hf) as Hn.
  assert (Hp : length (part r (f, o)) = length (part r' (f, o))) by (unfold part; cbn [fst snd]; rewrite !slice_length by lia; auto).
  destruct (f_noise f); cbn [whiten_jacobian]; auto; [rewrite Hp; auto | destruct Hn].
Qed.
Lemma lin_vals val val' r r' : legal E fs val -> legal E fs val' -> length r = m -> length r' = m -> graph_vals E val r fs = graph_vals E val' r' fs.
Proof.
  intros Hl Hl' Hr Hr'. unfold graph_vals.
  assert (H : forall gs off, (forall f, In f (concat gs) -> In f fs) -> (off + total residual_dim (concat gs) <= m)%nat ->
    flat_map (fun go => map (fun i => slot_vals E val r (snd go) i (fst go)) (seq 0 (gkind_slots (fst go)))) (place gdim off gs) =
    flat_map (fun go => map (fun i => slot_vals E val' r' (snd go) i (fst go)) (seq 0 (gkind_slots (fst go)))) (place gdim off gs)).
  { induction gs as [|h gs IH]; intros off Hi Ho; simpl; auto. simpl in Ho, Hi. rewrite total_app in Ho. f_equal.
    - apply map_ext. intros i. unfold slot_vals. cbn [fst snd].
      assert (H : forall l o, (forall f, In f l -> In f fs) -> (o + total residual_dim l <= m)%nat ->
        flat_map (fun fo => concat (nth i (wjacs E val r fo) [])) (place residual_dim o l) =
        flat_map (fun fo => concat (nth i (wjacs E val' r' fo) [])) (place residual_dim o l)).
      { induction l as [|f l IHl]; intros o Hil Hol; simpl; auto. simpl in Hol. rewrite (lin_wjacs val val' r r' f o); auto; [|apply Hil; left; auto|lia].
        f_equal. apply IHl; [intros; apply Hil; right; auto | lia]. }
      apply H; [intros; apply Hi, in_or_app; auto | lia].
    - apply IH; [intros; apply Hi, in_or_app; auto | unfold gdim; lia]. }
  apply H.
  - intros f Hf. apply (Permutation_in _ (kgroups_perm fs)); auto.
  - unfold m. simpl. rewrite (total_perm _ _ _ (kgroups_perm fs)). lia.
Qed.
Lemma lin_jacobian a val b val' r r' : holds E fs a val -> holds E fs b val' -> length r = m -> length r' = m ->
  compute_whitened_residual_jacobian E g a r = compute_whitened_residual_jacobian E g b r'.
Proof.
  intros Ha Hb Hr Hr'. pose proof (holds_legal E fs CO _ _ Ha) as Hl. pose proof (holds_legal E fs CO _ _ Hb) as Hl'.
  rewrite (jacobian_exact E fs Hrd fs g a val r), (jacobian_exact E fs Hrd fs g b val' r'); auto; try (intros f Hf; apply (ws_jacobian E fs Hws); auto); try apply holds_assigns; auto.
  rewrite (lin_vals val val' r r'); auto.
Qed.

(* residuals are affine *)
Lemma whiten_add (nm : noise R) x y wy : linear_noise nm -> noise_ok nm -> length x = noise_dim nm -> length y = noise_dim nm ->
  whiten_residual nm y = Ok wy -> exists wx, whiten_residual nm x = Ok wx /\ whiten_residual nm (vadd x y) = Ok (vadd wx wy).
Proof.
  intros Hl Hn Hx Hy Hw. destruct nm as [W|D|]; cbn [whiten_residual] in *; [| |destruct Hl]; destruct Hn as (Ha & k & Hk); rewrite Hk in *; cbn [noise_dim] in *.
  - assert (Hk' : forall z : list R, length z = length y -> (length z =? k) = true).
    { intros z Hz. apply Nat.eqb_eq. unfold noise_dim in Hy. cbn in Hy. rewrite Hk in Hy. cbn in Hy. congruence. }
    rewrite Hk' in Hw by auto. injection Hw as <-. rewrite !Hk' by (rewrite ?vadd_length; congruence).
    eexists. split; [reflexivity|]. f_equal. apply mvec_add. congruence.
  - unfold noise_dim in Hx, Hy. cbn in Hx, Hy. rewrite Hk in Hx, Hy. cbn in Hx, Hy.
    assert (Hs : forall z : list R, length z = k -> shape_eqb [length z] [k] = true).
    { intros z Hz. apply shape_eqb_ok. congruence. }
    rewrite Hs in Hw by auto. cbn [assert_ bind] in Hw. injection Hw as <-. rewrite !Hs by (rewrite ?vadd_length; congruence). cbn [assert_ bind].
    eexists. split; [reflexivity|]. f_equal. apply vmul_vadd; [congruence|]. apply Nat.eqb_eq in Ha. rewrite Hk in Ha. cbn in Ha. lia.
Qed.

Lemma concat_vadd {X} (F G : X -> list R) l : (forall x, In x l -> length (F x) = length (G x)) ->
  concat (map (fun x => vadd (F x) (G x)) l) = vadd (concat (map F l)) (concat (map G l)).
Proof.
  induction l as [|x l IH]; intros H; simpl; auto. rewrite IH by (intros; apply H; right; auto).
  assert (Hx : length (F x) = length (G x)) by (apply H; left; auto). revert Hx. generalize (F x) (G x). clear.
  induction l0 as [|y l0 IHl]; intros [|z l1]; simpl; intros Hx; try discriminate; auto. rewrite !vadd_cons. simpl. f_equal. apply IHl. auto.
Qed.

Lemma lin_residual a val b val' w w' r A : holds E fs a val -> holds E fs b val' -> length r = m ->
  compute_whitened_residual_vector E g a = Ok w -> compute_whitened_residual_vector E g b = Ok w' ->
  compute_whitened_residual_jacobian E g a r = Ok A ->
  coo_ok A /\ m_shape A = (m, n) /\ length w = m /\ w' = vadd w (mapply A (vsub (as_storage b) (as_storage a))).
Proof.
  intros Ha Hb Hr Hw Hw' EA. pose proof (holds_legal E fs CO _ _ Ha) as Hl. pose proof (holds_legal E fs CO _ _ Hb) as Hl'.
  pose proof (held_length _ _ Ha) as Hla. pose proof (held_length _ _ Hb) as Hlb.
  assert (Hj : forall f, In f fs -> jacobian_shape_ok E val f) by (intros f Hf; apply (ws_jacobian E fs Hws); auto).
  destruct (jacobian_action E fs g a r val Hok Hj Hg (holds_assigns E fs a val Ha) Hr Hrd) as (A' & EA' & HA & Hsh & _ & Hact).
  rewrite EA in EA'. injection EA' as <-. split; auto. split; auto.
  set (d := vsub (as_storage b) (as_storage a)). assert (Hd : length d = n) by (unfold d; rewrite vsub_length; congruence).
  specialize (Hact d Hd). rewrite matmul_mapply in Hact by (auto; rewrite Hsh; auto). injection Hact as Hact. rewrite Hact.
  destruct (residual_vector_ok E fs g a val Hok Hne Hg (holds_assigns E fs a val Ha)) as (ws & Hv1 & Hv2).
  { intros f Hf. apply (ws_residual E fs Hws); auto. }
  destruct (residual_vector_ok E fs g b val' Hok Hne Hg (holds_assigns E fs b val' Hb)) as (ws' & Hv1' & Hv2').
  { intros f Hf. apply (ws_residual E fs Hws); auto. }
  rewrite Hw in Hv2. injection Hv2 as ->. rewrite Hw' in Hv2'. injection Hv2' as ->.
  assert (Hone : forall fo, In fo (place residual_dim 0 (concat (kgroups fs))) -> exists wf, whitened_at E val (fst fo) = Ok wf /\ length wf = residual_dim (fst fo) /\
    length (apply_slots E L d (residual_dim (fst fo)) (f_vars (fst fo)) (wjacs E val r fo)) = residual_dim (fst fo) /\
    whitened_at E val' (fst fo) = Ok (vadd wf (apply_slots E L d (residual_dim (fst fo)) (f_vars (fst fo)) (wjacs E val r fo)))).
  { intros [f o] Hin. apply placed in Hin. destruct Hin as (Hf & Ho). cbn [fst].
    destruct (wjacs_ok E val r (f, o)) as (HW1 & HW2); [split; [apply Hok; auto | apply Hj; auto] | simpl; lia|].
    assert (Hp : length (part r (f, o)) = residual_dim f) by (unfold part; simpl; rewrite slice_length; lia).
    assert (Hsl : length (slots_times C L d (residual_dim f) (f_vars f) (jacobians_at E val f)) = residual_dim f).
    { apply slots_length. pose proof (Hj f Hf) as H. unfold jacobian_shape_ok in H. clear - H. induction H; constructor; tauto. }
    assert (Hwh : whiten_residual (f_noise f) (slots_times C L d (residual_dim f) (f_vars f) (jacobians_at E val f)) = Ok (slots_times C L d (residual_dim f) (f_vars f) (wjacs E val r (f, o)))).
    { apply (whiten_slots C L d (residual_dim f) (f_noise f) (f_vars f) (jacobians_at E val f) (wjacs E val r (f, o)) (part r (f, o))); auto.
      - apply (lp_noise _ _ LP); auto.
      - apply (proj1 (Hok f Hf)).
      - apply (Hj f Hf).
      - intros v Hv. apply PDeriv.block_length; auto. apply mentioned_in. eauto. }
    destruct (whitened_at_ok E val f (proj1 (Hok f Hf))) as (wf & Ewf & Hwf); [apply (ws_residual E fs Hws); auto|].
    assert (Hrs : length (residual_at E val f) = residual_dim f) by (apply (ws_residual E fs Hws); auto).
    destruct (whiten_add (f_noise f) (residual_at E val f) _ _ (lp_noise _ _ LP f Hf) (proj1 (Hok f Hf)) Hrs Hsl Hwh) as (wx & Ex & Ey).
    unfold whitened_at in Ewf. rewrite Ex in Ewf. injection Ewf as ->. exists wf. split; auto. split; auto. split.
    - apply apply_slots_length. clear - HW2. simpl in HW2. induction HW2; constructor; tauto.
    - unfold whitened_at. rewrite (lp_affine _ _ LP f val val' Hf (legal_legal_for _ _ Hl Hf) (legal_legal_for _ _ Hl' Hf)).
      refine (eq_trans _ Ey). do 2 f_equal. unfold jacobian_times_change, slots_times. f_equal.
      assert (Hb' : forall v, In v (f_vars f) -> block C L d v = vsub (ravel (val' v)) (ravel (val v))).
      { intros v Hv. assert (Hm : In v (mentioned fs)) by (apply mentioned_in; eauto). unfold d, vsub. rewrite block_zipw.
        rewrite (held_blocks a val), (held_blocks b val') by auto. auto. }
      revert Hb'. generalize (jacobians_at E val f). generalize (f_vars f). clear.
      induction l as [|v l IH]; intros [|J Js] H; simpl; auto. rewrite H by (left; auto). f_equal. apply IH. intros; apply H; right; auto. }
  assert (Hws1 : concat ws = concat (map (fun fo => unwrap [] (whitened_at E val (fst fo))) (place residual_dim 0 (concat (kgroups fs)))) /\
                 concat ws' = concat (map (fun fo => unwrap [] (whitened_at E val' (fst fo))) (place residual_dim 0 (concat (kgroups fs))))).
  { clear - Hv1 Hv1'. apply traverse_forall2 in Hv1, Hv1'. split; f_equal; [clear Hv1'; rename Hv1 into H | clear Hv1; rename Hv1' into H]; revert H;
    generalize (concat (kgroups fs)) 0%nat; intros l s H; revert s; (induction H as [|f0 w0 l ws0 Hf Hw IH]; intros s; simpl; auto; rewrite Hf; simpl; f_equal; auto). }
  destruct Hws1 as (E1 & E2). rewrite E1, E2. split.
  - rewrite <- E1. unfold compute_whitened_residual_vector in Hw. apply bind_ok in Hw. destruct Hw as (? & _ & Hw). apply bind_ok in Hw. destruct Hw as (? & _ & Hw).
    apply bind_ok in Hw. destruct Hw as (r0 & _ & Hw). apply bind_ok in Hw. destruct Hw as ([] & Hl0 & Hw). injection Hw as <-.
    unfold assert_ in Hl0. destruct (Nat.eqb (length r0) (g_residual_dim g)) eqn:El; [|discriminate]. apply Nat.eqb_eq in El.
    rewrite El. apply (ig_dim _ _ _ Hg).
  - rewrite <- concat_vadd.
    + f_equal. apply map_ext_in. intros fo Hfo. destruct (Hone fo Hfo) as (wf & H1 & H2 & H3 & H4). rewrite H1, H4. reflexivity.
    + intros fo Hfo. destruct (Hone fo Hfo) as (wf & H1 & H2 & H3 & H4). rewrite H1. simpl. fold L. congruence.
Qed.

Lemma cost_parts a c r : compute_cost E g a = Ok (c, r) -> compute_whitened_residual_vector E g a = Ok r /\ c = sumsq r.
Proof. unfold compute_cost. intros H. apply bind_ok in H. destruct H as (w & H1 & H2). injection H2 as <- <-. auto. Qed.

(* states whose residual is that of the stored values *)
Definition fresh (s : sstate R) : Prop := current E g s /\ exists val, holds E fs (s_assign s) val.

(* one damped step compared with any other point *)
Lemma lin_step s A mu c x : fresh s -> compute_whitened_residual_jacobian E g (s_assign s) (s_res s) = Ok A ->
  (forall y, length y = n -> vdot y c = - vdot (mapply A y) (s_res s)) -> normal_ok A mu c x ->
  exists a' c' r' val', manifold_retract C (s_assign s) (mkAssign x L) = Ok a' /\ compute_cost E g a' = Ok (c', r') /\ holds E fs a' val' /\
    r' = vadd (s_res s) (mapply A x) /\ coo_ok A /\ m_shape A = (m, n) /\ length x = n /\ length (s_res s) = m /\
    (as_storage a' = vadd (as_storage (s_assign s)) x /\ vsub (as_storage a') (as_storage (s_assign s)) = x) /\
    forall z valz cz rz, holds E fs z valz -> compute_cost E g z = Ok (cz, rz) ->
      c' + mu * sumsq x + mu * sumsq (vsub (as_storage z) (as_storage a')) <= cz + mu * sumsq (vsub (as_storage z) (as_storage (s_assign s))).
Proof.
  intros (Hcur & val & Ha) EA Hc Hn. pose proof (cost_parts _ _ _ Hcur) as (Hw & Hcost).
  pose proof (held_length _ _ Ha) as Hla.
  assert (Hm : length (s_res s) = m).
  { destruct (cost_total E CO fs g Hok Hg Hne Hws (s_assign s) (ex_intro _ val Ha)) as (c0 & r0 & Ec & Hl0).
    rewrite Hcur in Ec. injection Ec as <- <-. auto. }
  destruct (lin_residual (s_assign s) val (s_assign s) val _ _ (s_res s) A Ha Ha Hm Hw Hw EA) as (HA & Hsh & _ & _).
  assert (Hx : length x = n) by (rewrite (proj1 Hn), Hsh; auto).
  destruct (lin_retract (s_assign s) val x Ha Hx) as (a' & val' & Er & Ha' & Hst).
  destruct (cost_total E CO fs g Hok Hg Hne Hws a' (ex_intro _ val' Ha')) as (c' & r' & Ec' & Hl').
  pose proof (cost_parts _ _ _ Ec') as (Hw' & Hcost').
  assert (Hdx : vsub (vadd (as_storage (s_assign s)) x) (as_storage (s_assign s)) = x).
  { clear - Hla Hx. assert (H : length (as_storage (s_assign s)) = length x) by congruence. revert H. generalize (as_storage (s_assign s)). clear. intros l. revert x.
    induction l as [|y l IH]; intros [|z x]; simpl; intros H; try discriminate; auto. rewrite vadd_cons, vsub_cons. f_equal; [lra | apply IH; auto]. }
  destruct (lin_residual (s_assign s) val a' val' _ _ (s_res s) A Ha Ha' Hm Hw Hw' EA) as (_ & _ & _ & Hr').
  rewrite Hst, Hdx in Hr'.
  exists a', c', r', val'. do 8 (split; [assumption|]). split; [split; [assumption | rewrite Hst; assumption]|]. intros z valz cz rz Hz Ecz.
  pose proof (cost_parts _ _ _ Ecz) as (Hwz & Hcz). pose proof (held_length _ _ Hz) as Hlz.
  destruct (lin_residual (s_assign s) val z valz _ _ (s_res s) A Ha Hz Hm Hw Hwz EA) as (_ & _ & _ & Hrz).
  set (d := vsub (as_storage z) (as_storage (s_assign s))) in *. assert (Hd : length d = n) by (unfold d; rewrite vsub_length; congruence).
  assert (Hzd : vsub (as_storage z) (as_storage a') = vsub d x).
  { rewrite Hst. unfold d. clear - Hla Hx Hlz. assert (H : length (as_storage (s_assign s)) = length x) by congruence. assert (H2 : length (as_storage z) = length x) by congruence.
    revert H H2. generalize (as_storage (s_assign s)) (as_storage z). clear. intros l. revert x.
    induction l as [|y l IH]; intros [|z x] [|w k]; simpl; intros H H2; try discriminate; auto. rewrite vadd_cons, !vsub_cons. f_equal; [lra | apply IH; auto]. }
  rewrite Hzd, Hcost', Hcz, Hr', Hrz. apply (prox A HA mu (s_res s) c x d); try (rewrite Hsh); auto.
Qed.

Definition damping (s : sstate R) : R := s_extra s + 1 / 100000.
Definition optimal (s : sstate R) : Prop := forall z valz cz rz, holds E fs z valz -> compute_cost E g z = Ok (cz, rz) -> s_cost s <= cz.
Definition progress (s s' : sstate R) : Prop :=
  ((forall z valz cz rz, holds E fs z valz -> compute_cost E g z = Ok (cz, rz) ->
     s_cost s' + damping s * sumsq (vsub (as_storage (s_assign s')) (as_storage (s_assign s))) + damping s * sumsq (vsub (as_storage z) (as_storage (s_assign s'))) <=
     cz + damping s * sumsq (vsub (as_storage z) (as_storage (s_assign s)))) /\ s_extra s' <= s_extra s) \/
  (s_assign s' = s_assign s /\ s_cost s' = s_cost s /\ optimal s).
Definition inv (s : sstate R) : Prop := fresh s /\ 0 <= s_extra s.

Lemma damping_pos s : inv s -> 0 < damping s.
Proof. intros (_ & H). unfold damping. lra. Qed.
Lemma self_distance (x : list R) : sumsq (vsub x x) = 0.
Proof. rewrite sumsq_dot. induction x as [|y x IH]; [apply vdot_nil_l|]. rewrite vsub_cons, vdot_cons, IH. lra. Qed.
Lemma progress_mono s s' : inv s -> progress s s' -> s_cost s' <= s_cost s.
Proof.
  intros Hi [(H & _)|(_ & H & _)]; [|lra]. pose proof (damping_pos s Hi). destruct Hi as ((Hc & val & Ha) & _).
  specialize (H _ _ _ _ Ha Hc). rewrite self_distance in H. pose proof (sumsq_nonneg (vsub (as_storage (s_assign s)) (as_storage (s_assign s')))).
  pose proof (sumsq_nonneg (vsub (as_storage (s_assign s')) (as_storage (s_assign s)))). nra.
Qed.

Section Chain.
Variable step : sstate R -> result (sstate R).
Variable Q : sstate R -> Prop.
Hypothesis Hstep : forall s s', inv s -> Q s -> step s = Ok s' -> inv s' /\ Q s' /\ progress s s'.
Lemma chain_mono k : forall s s', inv s -> Q s -> iterate k step s = Ok s' -> inv s' /\ s_cost s' <= s_cost s.
Proof.
  induction k as [|k IH]; simpl; intros s s' Hi Hq H; [injection H as <-; split; auto; lra|].
  apply bind_ok in H. destruct H as (s1 & H1 & H2). destruct (Hstep _ _ Hi Hq H1) as (Hi1 & Hq1 & Hp). pose proof (progress_mono _ _ Hi Hp).
  destruct (IH _ _ Hi1 Hq1 H2). split; auto. lra.
Qed.
Lemma chain_rate z valz cz rz k : holds E fs z valz -> compute_cost E g z = Ok (cz, rz) -> forall s s', inv s -> Q s -> iterate k step s = Ok s' ->
  INR k * s_cost s' <= INR k * cz + damping s * sumsq (vsub (as_storage z) (as_storage (s_assign s))).
Proof.
  intros Hz Ez. induction k as [|k IH]; intros s s' Hi Hq H.
  - simpl INR. pose proof (damping_pos s Hi). pose proof (sumsq_nonneg (vsub (as_storage z) (as_storage (s_assign s)))). nra.
  - simpl in H. apply bind_ok in H. destruct H as (s1 & H1 & H2). destruct (Hstep _ _ Hi Hq H1) as (Hi1 & Hq1 & Hp).
    destruct (chain_mono k s1 s' Hi1 Hq1 H2) as (_ & Hm). specialize (IH s1 s' Hi1 Hq1 H2). rewrite S_INR.
    pose proof (sumsq_nonneg (vsub (as_storage z) (as_storage (s_assign s)))). pose proof (sumsq_nonneg (vsub (as_storage z) (as_storage (s_assign s1)))).
    pose proof (pos_INR k) as Hk. pose proof (damping_pos s Hi). destruct Hp as [(Hp & Hx)|(_ & Hc & Ho)].
    + specialize (Hp _ _ _ _ Hz Ez). assert (damping s1 <= damping s) by (unfold damping; lra).
      pose proof (Rmult_le_pos _ _ (Rlt_le _ _ H3) (sumsq_nonneg (vsub (as_storage (s_assign s1)) (as_storage (s_assign s))))). nra.
    + specialize (Ho _ _ _ _ Hz Ez). assert (Hle : s_cost s' <= cz) by lra. nra.
Qed.
End Chain.

Lemma gn_rhs A r ATr : coo_ok A -> m_shape A = (m, n) -> length r = m -> matmul (transpose A) r = Ok ATr -> length ATr = n /\
  forall y, length y = n -> vdot y (vneg ATr) = - vdot (mapply A y) r.
Proof.
  intros HA Hsh Hr H. rewrite matmul_mapply in H; [|apply transpose_ok; auto | cbn; rewrite Hsh; auto]. injection H as <-. split.
  - rewrite mapply_length. cbn. rewrite Hsh. auto.
  - intros y Hy. rewrite vdot_neg_r. rewrite <- mapply_adjoint; auto; rewrite Hsh; auto.
Qed.
Lemma lm_rhs A r b : coo_ok A -> m_shape A = (m, n) -> length r = m -> matmul (transpose A) (vneg r) = Ok b -> length b = n /\
  forall y, length y = n -> vdot y b = - vdot (mapply A y) r.
Proof.
  intros HA Hsh Hr H. rewrite matmul_mapply in H; [|apply transpose_ok; auto | cbn; rewrite Hsh; unfold vneg; rewrite map_length; auto]. injection H as <-. split.
  - rewrite mapply_length. cbn. rewrite Hsh. auto.
  - intros y Hy. rewrite <- mapply_adjoint; auto; try (rewrite Hsh; auto); [apply vdot_neg_r | unfold vneg; rewrite map_length; auto].
Qed.
Lemma fresh_shapes s A : fresh s -> compute_whitened_residual_jacobian E g (s_assign s) (s_res s) = Ok A ->
  coo_ok A /\ m_shape A = (m, n) /\ length (s_res s) = m.
Proof.
  intros (Hcur & val & Ha) EA. pose proof (cost_parts _ _ _ Hcur) as (Hw & _).
  assert (Hm : length (s_res s) = m).
  { destruct (cost_total E CO fs g Hok Hg Hne Hws (s_assign s) (ex_intro _ val Ha)) as (c0 & r0 & Ec & Hl0).
    rewrite Hcur in Ec. injection Ec as <- <-. auto. }
  destruct (lin_residual (s_assign s) val (s_assign s) val _ _ (s_res s) A Ha Ha Hm Hw Hw EA) as (HA & Hsh & _ & _). auto.
Qed.

Lemma gn_update_lin s b delta a' : fresh s -> gn_update E cholmod_solve g s = Ok (b, delta, a') ->
  exists c' r' val', compute_cost E g a' = Ok (c', r') /\ holds E fs a' val' /\
   forall z valz cz rz, holds E fs z valz -> compute_cost E g z = Ok (cz, rz) ->
      c' + 1 / 100000 * sumsq (vsub (as_storage a') (as_storage (s_assign s))) + 1 / 100000 * sumsq (vsub (as_storage z) (as_storage a')) <= cz + 1 / 100000 * sumsq (vsub (as_storage z) (as_storage (s_assign s))).
Proof.
  intros Hf H. unfold gn_update in H. apply bind_ok in H. destruct H as (A & EA & H). apply bind_ok in H. destruct H as (ATr & ET & H).
  apply bind_ok in H. destruct H as (x & Ex & H). apply bind_ok in H. destruct H as (a1 & Er & H). injection H as <- <- <-.
  destruct (fresh_shapes s A Hf EA) as (HA & Hsh & Hm). destruct (gn_rhs A (s_res s) ATr HA Hsh Hm ET) as (Hl & Hdot).
  destruct (cholmod_solve_ok A (vneg ATr) n0 (s_iter s) HA) as (x' & Ex' & Hn); [rn; unfold Rlit; lra | rewrite Hsh; unfold vneg; rewrite map_length; auto|].
  rewrite Ex in Ex'. injection Ex' as <-.
  destruct (lin_step s A _ _ x Hf EA Hdot Hn) as (a2 & c' & r' & val' & Er' & Ec & Hh & _ & _ & _ & Hx & _ & (_ & Hsub) & Hz).
  rewrite (ig_local _ _ _ Hg) in Er. fold C L in Er. rewrite Er in Er'. injection Er' as <-.
  exists c', r', val'. do 2 (split; auto). intros z valz cz rz H1 H2. specialize (Hz z valz cz rz H1 H2).
  replace (n0 + Rlit 1 100000) with (1 / 100000) in Hz by (rn; unfold Rlit; lra). rewrite Hsub. lra.
Qed.
Lemma gn_lin cfg s s' : inv s -> s_extra s = 0 -> gn_step E cfg cholmod_solve g s = Ok s' -> inv s' /\ s_extra s' = 0 /\ progress s s'.
Proof.
  intros (Hf & _) H0 H. unfold gn_step in H. apply bind_ok in H. destruct H as (((b & delta) & a') & Eu & H).
  destruct (gn_update_lin s b delta a' Hf Eu) as (c' & r' & val' & Ec & Hh & Hz). rewrite Ec in H. cbn [bind fst snd] in H.
  apply bind_ok in H. destruct H as (conv & _ & H). injection H as <-. unfold inv, fresh, current, progress, damping. cbn. rewrite H0. split; [|split].
  - split; [|lra]. split; eauto.
  - auto.
  - left. split; [|lra]. intros z valz cz rz H1 H2. specialize (Hz _ _ _ _ H1 H2). lra.
Qed.
Lemma fixed_lin it s s' : inv s -> s_extra s = 0 -> fixed_step E it cholmod_solve g s = Ok s' -> inv s' /\ s_extra s' = 0 /\ progress s s'.
Proof.
  intros (Hf & _) H0 H. unfold fixed_step in H. apply bind_ok in H. destruct H as (((b & delta) & a') & Eu & H).
  destruct (gn_update_lin s b delta a' Hf Eu) as (c' & r' & val' & Ec & Hh & Hz). rewrite Ec in H. cbn [bind fst snd] in H.
  injection H as <-. unfold inv, fresh, current, progress, damping. cbn. rewrite H0. split; [|split].
  - split; [|lra]. split; eauto.
  - auto.
  - left. split; [|lra]. intros z valz cz rz H1 H2. specialize (Hz _ _ _ _ H1 H2). lra.
Qed.

Lemma vadd_comm (a b : list R) : vadd a b = vadd b a.
Proof. revert b. induction a as [|x a IH]; intros [|y b]; auto. rewrite !vadd_cons, IH. f_equal. lra. Qed.
Lemma sumsq_zero (x : list R) : sumsq x = 0 -> x = vzero (length x).
Proof.
  rewrite sumsq_dot. induction x as [|y x IH]; auto. rewrite vdot_cons. intros H. cbn [length]. rewrite vzero_S.
  assert (0 <= vdot x x) by (rewrite <- sumsq_dot; apply sumsq_nonneg). assert (y = 0) by nra. f_equal; auto. apply IH. nra.
Qed.
Lemma vadd_zero (x : list R) : vadd x (vzero (length x)) = x.
Proof. induction x as [|y x IH]; auto. cbn [length]. rewrite vzero_S, vadd_cons, IH. f_equal. lra. Qed.

Lemma shrink l f : 0 <= l -> 1 <= f -> 0 <= l / f /\ l / f <= l.
Proof.
  intros Hl Hf. assert (0 < / f) by (apply Rinv_0_lt_compat; lra). assert (l / f * f = l) by (field; lra).
  assert (0 <= l / f) by (unfold Rdiv; apply Rmult_le_pos; lra). split; auto. nra.
Qed.
Lemma lm_lin cfg s s' : 1 <= lambda_factor cfg -> 0 <= lambda_min cfg -> lm_quality_min cfg <= 1 -> inv s ->
  lm_step E cfg cholmod_solve g s = Ok s' -> inv s' /\ True /\ progress s s'.
Proof.
  intros Hfac Hmin Hq (Hf & Hl) H. unfold lm_step in H. apply bind_ok in H. destruct H as (A & EA & H). apply bind_ok in H. destruct H as (b & ET & H).
  apply bind_ok in H. destruct H as (x & Ex & H). apply bind_ok in H. destruct H as (a1 & Er & H).
  destruct (fresh_shapes s A Hf EA) as (HA & Hsh & Hm). destruct (lm_rhs A (s_res s) b HA Hsh Hm ET) as (Hlb & Hdot).
  destruct (cholmod_solve_ok A b (s_extra s) (s_iter s) HA) as (x' & Ex' & Hn); [unfold Rlit; lra | rewrite Hsh; auto|].
  rewrite Ex in Ex'. injection Ex' as <-. change (s_extra s + Rlit 1 100000) with (damping s) in Hn.
  destruct (lin_step s A _ _ x Hf EA Hdot Hn) as (a2 & c' & r' & val' & Er' & Ec & Hh & Hr' & _ & _ & Hx & _ & (Hst & Hsub) & Hz).
  rewrite (ig_local _ _ _ Hg) in Er. fold C L in Er. rewrite Er in Er'. injection Er' as <-.
  rewrite Ec in H. cbn [bind fst snd] in H. apply bind_ok in H. destruct H as (q & Eq & H). apply bind_ok in H. destruct H as (conv & _ & H).
  assert (Hd : 0 < damping s) by (apply damping_pos; split; auto).
  pose proof (cost_parts _ _ _ Ec) as (_ & Hc'). pose proof (retract_layout _ _ _ _ Er) as HLa.
  destruct (Req_dec c' (s_cost s)) as [Hsame|Hdiff].
  - (* no decrease: the step is zero and s is optimal *)
    destruct Hf as (Hcur & val & Ha). pose proof (Hz _ _ _ _ Ha Hcur) as Hself. rewrite self_distance in Hself.
    pose proof (sumsq_nonneg x) as Hnx. pose proof (sumsq_nonneg (vsub (as_storage (s_assign s)) (as_storage a1))) as Hn2.
    assert (Hx0 : sumsq x = 0) by nra. apply sumsq_zero in Hx0. rewrite Hx in Hx0.
    assert (Hst' : as_storage a1 = as_storage (s_assign s)).
    { rewrite Hst, Hx0. rewrite <- (held_length _ _ Ha). apply vadd_zero. }
    assert (Ha1 : a1 = s_assign s) by (destruct a1, (s_assign s); cbn in *; congruence).
    rewrite Ha1 in *. rewrite Hcur in Ec. injection Ec as <- <-.
    destruct (nleb (lm_quality_min cfg) q) eqn:Eacc; injection H as <-; (split; [split; [split|]|split; auto]); unfold current; cbn [s_assign s_cost s_res s_extra]; rewrite ?assign_eta; try exact Hcur; eauto.
    + apply (shrink (s_extra s) (lambda_factor cfg)); auto.
    + left. split; [|apply (shrink (s_extra s) (lambda_factor cfg)); auto].
      cbn [s_assign s_cost]. rewrite ?assign_eta. intros z valz cz rz H1 H2. specialize (Hz _ _ _ _ H1 H2). rewrite Hsub. nra.
    + unfold lm_lambda. rn. eapply Rle_trans; [exact Hmin | apply Rmax_l].
    + right. cbn [s_assign s_cost]. rewrite ?assign_eta. do 2 (split; auto). intros z valz cz rz H1 H2. specialize (Hz _ _ _ _ H1 H2). nra.
  - (* the linear model is exact: quality 1 *)
    assert (Hq1 : q = 1).
    { unfold step_quality in Eq. rewrite matmul_mapply in Eq by (auto; rewrite Hsh; auto). cbn [bind] in Eq. injection Eq as <-. rn.
      rewrite vadd_comm, <- Hr', <- Hc'. unfold Rdiv. apply Rinv_r. lra. }
    subst q. assert (Eacc : nleb (lm_quality_min cfg) 1 = true) by (rn; apply Rleb_ok; auto).
    rewrite Eacc in H. injection H as <-. rewrite <- HLa, assign_eta.
    split; [split; [split|]|split; auto]; unfold current; cbn [s_assign s_cost s_res s_extra]; eauto.
    + apply (shrink (s_extra s) (lambda_factor cfg)); auto.
    + left. split; [|apply (shrink (s_extra s) (lambda_factor cfg)); auto].
      cbn [s_assign s_cost]. intros z valz cz rz H1 H2. specialize (Hz _ _ _ _ H1 H2). rewrite Hsub. lra.
Qed.

Lemma runs_iterate (step : sstate R -> result (sstate R)) k s s' : runs step k s s' -> iterate k step s = Ok s'.
Proof. induction 1; simpl; auto. rewrite H0. auto. Qed.
End Lin.
