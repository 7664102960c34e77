(* Proofs: on graphs of rotations with isotropic noise the solvers follow the gradient of the
   cost, at every residual short of a half turn. *)
From Coq Require Import List Arith Bool Lia Reals Lra.
From Verif Require Import Num NumR Py Arr MLayout MAssign MNoise MSparse MFactor MGraph MLie MPose SpecLayout SpecTree SpecAssign SpecGraph SpecSparse SpecDeriv SpecNoise SpecLie SpecPose SpecZero SpecSpatial SpecTwin SpecInv SpecOrder SpecBook SpecSettle.
From Verif Require Import PBase PLayout PTree PAssign PAssign2 PAssign3 PStack PGraph PGraph2 PJac PVec PSparse PGraph3 PGraph4 PGraph5 PDeriv PExGraph PHold PNoise PLie PPose PFrame PZero PJacZero PSpatial PSpatial2 PSpatial3 PSpatial4 PSolverR PLoss POrder POrder2 PInv PTwin PBook PSettle1 PSettle2 PSettle3 PSettle4.
Import ListNotations.
Local Open Scope R_scope.

Section Graph.
Variable groups : vty -> lie_ops R (list R).
Variable fs : list (factor R).
Hypothesis Hfs : forall f, In f fs -> pose_factor groups f.
Hypothesis Hk : forall v, In v (mentioned fs) -> turning (groups (v_ty v)).
Let E := pose_env groups.

Lemma factor_swing f val (blk : var -> list R) : In f fs -> unit_measurement groups f -> 
  (forall v, In v (f_vars f) -> pose_value groups (v_ty v) (val v) /\ unit_pose (groups (v_ty v)) (params (val v))) ->
  (forall v, In v (f_vars f) -> length (blk v) = lg_dim (groups (v_ty v))) ->
  vnorm (residual_at E val f) < PI ->
  derivable_pt_lim (fun t => sumsq (residual_at E (fun v => group_value (v_ty v) (lie_retract (groups (v_ty v)) (params (val v)) (vscale t (blk v)))) f)) 0
    (2 * vdot (residual_at E val f) (fold_right vadd (vzero (residual_dim f)) (zipw (fun v W => mvec W (blk v)) (f_vars f) (jacobians_at E val f)))).
Proof.
  intros Hf Hu Hv Hb Hn. assert (Hs : forall t x, pose_value groups t x -> length (params x) = length (lg_one (groups t))).
  { intros t x (p & -> & Hp). rewrite params_value. exact Hp. }
  revert Hu Hv Hb Hn. destruct (Hfs f Hf) as [v mu n Hmu Hno Hd|va vb Tab n h Hbt Htab Hno Hd]; intros Hu Hv Hb Hn.
  - assert (Hp : turning (groups (v_ty v))) by (apply Hk, (in_mentioned fs _ v Hf); cbn; auto).
    destruct (Hv v) as (Lv & Uv); [cbn; auto|]. specialize (Hb v (or_introl eq_refl)).
    assert (Um : unit_pose (groups (v_ty v)) (params mu)) by (apply (Hu v mu); cbn; auto).
    unfold residual_dim. cbn [prior_make f_noise]. rewrite Hd.
    change (derivable_pt_lim (fun t => sumsq (prior_residual (groups (v_ty v)) (params mu) (params (group_value (v_ty v) (lie_retract (groups (v_ty v)) (params (val v)) (vscale t (blk v))))))) 0
      (2 * vdot (prior_residual (groups (v_ty v)) (params mu) (params (val v))) (vadd (mvec (neg_eye (lg_dim (groups (v_ty v)))) (blk v)) (vzero (lg_dim (groups (v_ty v))))))).
    rewrite add_zero_r by (rewrite neg_eye_mvec, vneg_length; auto). rewrite neg_eye_mvec by auto.
    eapply deriv_ext; [|apply (prior_swing (groups (v_ty v)) Hp (params mu) (params (val v)) (blk v)); auto; split; auto].
    intros t. cbv beta. rewrite params_value. reflexivity.
  - pose proof (between_inv va vb Tab n h Hbt) as (Ht & ->).
    assert (Hp : turning (groups (v_ty va))) by (apply Hk, (in_mentioned fs _ va Hf); cbn; auto).
    destruct (Hv va) as (La & Ua); [cbn; auto|]. destruct (Hv vb) as (Lb & Ub); [cbn; auto|].
    pose proof (Hb va (or_introl eq_refl)) as Ba. pose proof (Hb vb (or_intror (or_introl eq_refl))) as Bb.
    assert (Ut : unit_pose (groups (v_ty va)) (params Tab)) by (apply (Hu va Tab); cbn; auto).
    unfold residual_dim. cbn [f_noise]. rewrite Hd.
    change (derivable_pt_lim (fun t => sumsq (between_residual (groups (v_ty va)) (params Tab)
        (params (group_value (v_ty va) (lie_retract (groups (v_ty va)) (params (val va)) (vscale t (blk va)))))
        (params (group_value (v_ty vb) (lie_retract (groups (v_ty vb)) (params (val vb)) (vscale t (blk vb))))))) 0
      (2 * vdot (between_residual (groups (v_ty va)) (params Tab) (params (val va)) (params (val vb)))
       (vadd (mvec (lg_adj (groups (v_ty va)) (lg_inv (groups (v_ty va)) (lg_mul (groups (v_ty va)) (lg_inv (groups (v_ty va)) (params (val va))) (params (val vb))))) (blk va))
        (vadd (mvec (neg_eye (lg_dim (groups (v_ty va)))) (blk vb)) (vzero (lg_dim (groups (v_ty va)))))))).
    apply Hs in Lb. rewrite <- Ht in Bb, Ub, Lb |- *. rewrite neg_eye_mvec by auto. rewrite add_zero_r by (rewrite vneg_length; auto). rewrite add_neg.
    eapply deriv_ext; [|apply (between_swing (groups (v_ty va)) Hp (params Tab) (params (val va)) (params (val vb)) (blk va) (blk vb)); auto; split; auto].
    intros t. cbv beta. rewrite !params_value. reflexivity.
Qed.

Lemma rotation_gradient g a vs val x : graph_make E fs = Ok g ->
  (forall f, In f fs -> unit_measurement groups f /\ (exists s, scales (f_noise f) (residual_dim f) s) /\ vnorm (residual_at E val f) < PI) ->
  wf_assign (lie_class groups) vs false a -> (forall t, of_type t vs = of_type t (mentioned fs)) ->
  (forall v, In v vs -> get_value (lie_class groups) a v = Ok (val v) /\ unit_pose (groups (v_ty v)) (params (val v))) ->
  length x = l_dim (g_local_layout g) ->
  exists r A grad c, compute_whitened_residual_vector E g a = Ok r /\ compute_whitened_residual_jacobian E g a r = Ok A /\
    matmul (transpose A) r = Ok grad /\ length grad = length x /\
    (forall t, exists a' r', manifold_retract (lie_class groups) a (mkAssign (vscale t x) (g_local_layout g)) = Ok a' /\ compute_cost E g a' = Ok (c t, r')) /\
    derivable_pt_lim c 0 (2 * vdot grad x).
Proof.
  intros Eg Hcon Hwf Hty Hget Hx. assert (Hk' : forall v, In v (mentioned fs) -> PPose.known groups (v_ty v)) by (intros v Hv; apply turning_known, Hk; auto).
  assert (Hok : forall f, In f fs -> factor_ok f) by (intros f Hf; eapply pose_factor_ok; eauto).
  destruct (made E fs g Hok Eg) as (Hg & Hne).
  assert (Hin : forall v, In v vs <-> In v (mentioned fs)).
  { intros v. pose proof (of_type_ty vs (v_ty v) v) as H1. pose proof (of_type_ty (mentioned fs) (v_ty v) v) as H2. rewrite Hty in H1. tauto. }
  assert (Hval : forall v, In v vs -> pose_value groups (v_ty v) (val v)).
  { intros v Hv. apply pose_value_ok. destruct (get_value_ok _ (pose_classes groups) vs a v Hwf Hv) as (y & Ey & Hy & _).
    destruct (Hget v Hv) as (Ev & _). rewrite Ev in Ey. injection Ey as <-. auto. }
  pose proof (pose_shaped groups fs Hfs Hk') as Hws.
  assert (Hleg : legal E fs val) by (intros v Hv; apply pose_value_ok, Hval, Hin; auto).
  assert (Hlx : g_local_layout g = graph_layout E fs true) by apply (ig_local _ _ _ Hg). rewrite Hlx in *.
  assert (Hblk : forall v, In v (mentioned fs) -> length (block (lie_class groups) (graph_layout E fs true) x v) = lg_dim (groups (v_ty v))).
  { intros v Hv. exact (PDeriv.block_length E fs x v Hx Hv). }
  set (valt := fun t v => group_value (v_ty v) (lie_retract (groups (v_ty v)) (params (val v)) (vscale t (block (lie_class groups) (graph_layout E fs true) x v)))).
  assert (Hvt : forall t v, In v vs -> value_ok (lie_class groups (v_ty v)) (valt t v)).
  { intros t v Hv. apply pose_value_ok. eexists. split; [reflexivity|]. apply retract_dim. apply Hk', Hin; auto. }
  assert (Hlt : forall t, legal E fs (valt t)) by (intros t v Hv; apply Hvt, Hin; auto).
  set (phi := fun f t => match whitened_at E (valt t) f with Ok w => sumsq w / 2 | Err _ => 0 end).
  destruct (form_gradient E fs g a vs val x valt phi) as (r & A & grad & Er & EA & Egr & Hlg & Hcur & Hdv); auto.
  - apply pose_classes.
  - intros v Hv. apply Hget; auto.
  - intros f Hf. apply (ws_jacobian E fs Hws); auto.
  - intros f Hf. apply (ws_residual E fs Hws); auto.
  - destruct (pose_posed groups fs Hfs Hk' Hne) as [_ _ _ (f & Hf & Hd) _]. intros Hz. apply Hd.
    clear -Hf Hz. induction fs as [|h l IH]; [destruct Hf|]. cbn in Hz. destruct Hf as [->|Hf]; [lia|]. apply IH; auto. unfold total in *. lia.
  - intros t v Hv. split; [reflexivity|]. apply Hvt; auto.
  - intros f w Ws Hf Ew EWs. destruct (Hcon f Hf) as (Hu & (s & Hlin & Hno & Hdim & Hsc) & Hb).
    assert (Hr0 : length (residual_at E val f) = residual_dim f) by (apply (ws_residual E fs Hws); auto).
    assert (Hw : w = vscale s (residual_at E val f)).
    { unfold whitened_at in Ew. rewrite Hsc in Ew by auto. injection Ew as <-. auto. }
    pose proof (ws_jacobian E fs Hws val f Hleg Hf) as Hjs.
    assert (Hfv : forall v, In v (f_vars f) -> In v (mentioned fs)) by (intros v Hv; eapply in_mentioned; eauto).
    assert (Hsl : slots_times (lie_class groups) (graph_layout E fs true) x (residual_dim f) (f_vars f) Ws = vscale s (slots_times (lie_class groups) (graph_layout E fs true) x (residual_dim f) (f_vars f) (jacobians_at E val f))).
    { assert (H := whiten_slots (lie_class groups) (graph_layout E fs true) x (residual_dim f) (f_noise f) (f_vars f) (jacobians_at E val f) Ws w Hlin Hno Hdim).
      rewrite Hsc in H. 2: { apply slots_length. clear - Hjs. unfold jacobian_shape_ok in Hjs. induction Hjs; constructor; tauto. }
      assert (H' := H (ltac:(rewrite Hw; unfold vscale; rewrite map_length; auto)) Hjs (fun v Hv => Hblk v (Hfv v Hv)) EWs). injection H' as H'. symmetry. exact H'. }
    change (e_cls E) with (lie_class groups). rewrite Hsl, Hw.
    pose proof (factor_swing f val (block (lie_class groups) (graph_layout E fs true) x) Hf Hu) as H.
    assert (H' := H (fun v Hv => conj (Hval v (proj2 (Hin v) (Hfv v Hv))) (proj2 (Hget v (proj2 (Hin v) (Hfv v Hv))))) (fun v Hv => Hblk v (Hfv v Hv)) Hb). clear H.
    apply (derivable_pt_lim_scal _ (s * s / 2)) in H'. fold (slots_times (lie_class groups) (graph_layout E fs true) x (residual_dim f) (f_vars f) (jacobians_at E val f)) in H'.
    rewrite vdot_scale_l, vdot_scale_r.
    match type of H' with derivable_pt_lim _ _ ?q => match goal with |- derivable_pt_lim _ _ ?p => replace p with q by (unfold Rdiv; field) end end.
    eapply deriv_ext; [|exact H']. intros t. cbv beta. unfold mult_real_fct, phi, whitened_at. rewrite (Hsc (residual_at E (valt t) f)) by exact (ws_residual E fs Hws (valt t) f (Hlt t) Hf). unfold valt. rewrite sumsq_scale. field.
  - exists r, A, grad, (fun t => 2 * vsum (map (fun f => phi f t) fs)). split; [auto|]. split; [auto|]. split; [auto|]. split; [rewrite Hlg; auto|]. split.
    + intros t. destruct (Hcur t) as (a' & Ea & Has). destruct (one_cost E fs g Hok Hg a' (valt t) Has (fun f Hf => ws_residual E fs Hws (valt t) f (Hlt t) Hf) Hne) as (Hrl & Hc).
      exists a'. eexists. split; [exact Ea|]. rewrite Hc. do 2 f_equal. rewrite sumsq_dot, rvec_vdot by auto.
      assert (Hi : forall f, In f fs -> vdot (unwrap [] (whitened_at E (valt t) f)) (unwrap [] (whitened_at E (valt t) f)) = 2 * phi f t).
      { intros f Hf. unfold phi. destruct (whitened_at_ok E (valt t) f (proj1 (Hok f Hf)) (ws_residual E fs Hws (valt t) f (Hlt t) Hf)) as (w & Ew & _). rewrite Ew. cbn [unwrap]. rewrite <- sumsq_dot. field. }
      change (vsum (map (fun f => vdot (unwrap [] (whitened_at E (valt t) f)) (unwrap [] (whitened_at E (valt t) f))) fs) = 2 * vsum (map (fun f => phi f t) fs)).
      rewrite (vsum_map_ext _ (fun f => 2 * phi f t)) by exact Hi. set (p := fun f => phi f t). change (vsum (map (fun f => 2 * p f) fs) = 2 * vsum (map p fs)). clearbody p. clear. induction fs as [|f l IH]; cbn [map]; rewrite ?vsum_cons, ?vsum_nil; [ring|]. rewrite IH. ring.
    + apply (derivable_pt_lim_scal _ 2) in Hdv. exact Hdv.
Qed.
End Graph.
