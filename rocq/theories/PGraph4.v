(* The action of the sparse Jacobian, the cost, layout independence. *)
From Coq Require Import List Arith Bool Lia Permutation Reals Lra.
From Verif Require Import Num NumR Py Arr MLayout MAssign MNoise MSparse MFactor MGraph SpecLayout SpecTree SpecAssign SpecGraph SpecSparse.
From Verif Require Import PBase PLayout PTree PAssign PAssign2 PAssign3 PStack PGraph PGraph2 PJac PVec PSparse PGraph3.
Import ListNotations.

(* ---- layout independence, for every arithmetic ---- *)
Section Layout.
Context {T : Type} {N : Num T}.
Variable E : env T.
Let C := e_cls E.

Lemma stack_residuals_ext s (a1 a2 : assign T) : as_storage a1 = as_storage a2 ->
  layout_eqb (as_layout a1) (fs_layout s) = layout_eqb (as_layout a2) (fs_layout s) ->
  stack_residuals E s a1 = stack_residuals E s a2.
Proof. intros H1 H2. unfold stack_residuals, stack_values. rewrite H1, H2. auto. Qed.
Lemma stack_jacobians_ext s (a1 a2 : assign T) : as_storage a1 = as_storage a2 ->
  layout_eqb (as_layout a1) (fs_layout s) = layout_eqb (as_layout a2) (fs_layout s) ->
  stack_jacobians E s a1 = stack_jacobians E s a2.
Proof. intros H1 H2. unfold stack_jacobians, stack_values. rewrite H1, H2. auto. Qed.

Lemma same_storage fs a1 a2 val : classes_ok C -> assigns E fs a1 val -> assigns E fs a2 val ->
  exists b1 b2, update_storage_layout C a1 (graph_layout E fs false) = Ok b1 /\
    update_storage_layout C a2 (graph_layout E fs false) = Ok b2 /\ as_storage b1 = as_storage b2 /\
    layout_eqb (as_layout b1) (graph_layout E fs false) = true /\
    layout_eqb (as_layout b2) (graph_layout E fs false) = true.
Proof.
  intros CO H1 H2. destruct (setup E fs a1 val H1) as (b1 & E1 & L1 & R1). destruct (setup E fs a2 val H2) as (b2 & E2 & L2 & R2).
  exists b1, b2. repeat split; auto.
  assert (Hl : forall a b, assigns E fs a val -> update_storage_layout C a (graph_layout E fs false) = Ok b ->
    wf_assign C (mentioned fs) false (mkAssign (as_storage b) (graph_layout E fs false))).
  { intros a b (vs & Hwf & Hvs & _) Eb.
    destruct (update_ok C vs (mentioned fs) false a Hwf (mentioned_nodup fs) Hvs) as (b' & Eb' & _ & _ & Hlen & _).
    assert (b' = b) by (unfold graph_layout in Eb; fold C in Eb; congruence). subst b'.
    repeat split; simpl; auto. apply mentioned_nodup. }
  pose proof (Hl _ _ H1 E1) as W1. pose proof (Hl _ _ H2 E2) as W2.
  assert (Hx : mkAssign (as_storage b1) (graph_layout E fs false) = mkAssign (as_storage b2) (graph_layout E fs false)); [|congruence].
  apply (values_ext C CO (mentioned fs)); auto.
  intros v Hv. rewrite !(get_value_block C (mentioned fs)) by auto. simpl.
  specialize (R1 v Hv). specialize (R2 v Hv). unfold reads, pos in R1, R2. unfold block.
  pose proof (proj1 (lay_index_mem C (mentioned fs) false (mentioned_nodup fs) v) Hv) as (i & Hi).
  unfold graph_layout in *. fold C in R1, R2. fold C. rewrite Hi in *. rewrite lay_local by apply mentioned_nodup.
  destruct R1 as (_ & R1), R2 as (_ & R2). exact (eq_trans R1 (eq_sym R2)).
Qed.

Lemma traverse_ext_in {A B} (F G : A -> result B) l : (forall x, In x l -> F x = G x) -> traverse F l = traverse G l.
Proof. induction l as [|x l IH]; intros H; simpl; auto. rewrite H by (left; auto). rewrite IH; auto. intros; apply H; right; auto. Qed.
Lemma foldM_ext_in {A S} (F G : S -> A -> result S) l : (forall s x, In x l -> F s x = G s x) -> forall s, foldM F l s = foldM G l s.
Proof.
  induction l as [|x l IH]; intros H s; simpl; auto. rewrite H by (left; auto). destruct (G s x); simpl; auto.
  apply IH. intros; apply H; right; auto.
Qed.

Lemma stacks_layout fs g s : is_graph E fs g -> In s (g_stacks g) -> fs_layout s = graph_layout E fs false.
Proof.
  intros Hg. pose proof (ig_stacks _ _ _ Hg) as Hs. induction Hs as [|gf s' gfs ss H Hs IH]; simpl; [tauto|].
  intros [<-|Hin]; auto. apply (is_lay _ _ _ _ H).
Qed.

Lemma layout_independent fs g a1 a2 val r ln det : classes_ok C -> is_graph E fs g -> assigns E fs a1 val -> assigns E fs a2 val ->
  compute_whitened_residual_vector E g a1 = compute_whitened_residual_vector E g a2 /\
  compute_cost E g a1 = compute_cost E g a2 /\
  compute_joint_nll E ln det g a1 = compute_joint_nll E ln det g a2 /\
  compute_whitened_residual_jacobian E g a1 r = compute_whitened_residual_jacobian E g a2 r.
Proof.
  intros CO Hg H1 H2. destruct (same_storage fs a1 a2 val CO H1 H2) as (b1 & b2 & E1 & E2 & Es & L1 & L2).
  assert (HV : compute_whitened_residual_vector E g a1 = compute_whitened_residual_vector E g a2).
  { unfold compute_whitened_residual_vector. rewrite (ig_layout _ _ _ Hg). fold C. rewrite E1, E2. cbn [bind].
    rewrite (traverse_ext_in (fun s => stack_whitened E s b1) (fun s => stack_whitened E s b2)); auto.
    intros s Hs. unfold stack_whitened. rewrite (stack_residuals_ext s b1 b2); auto.
    rewrite (stacks_layout fs g s Hg Hs). congruence. }
  split; [exact HV|]. unfold compute_cost, compute_joint_nll. rewrite HV. split; [auto|]. split; [auto|].
  unfold compute_whitened_residual_jacobian. rewrite (ig_layout _ _ _ Hg). fold C. rewrite E1, E2. cbn [bind].
  rewrite (foldM_ext_in (jacobian_step E b1 r) (jacobian_step E b2 r)); auto.
  intros [vals st] s Hs. unfold jacobian_step, stack_jacobian_values. rewrite (stack_jacobians_ext s b1 b2); auto.
  rewrite (stacks_layout fs g s Hg Hs). congruence.
Qed.

Lemma wrong_variables fs g a vs local r ln det : is_graph E fs g -> wf_assign C vs local a ->
  ~ (forall v, In v vs <-> In v (mentioned fs)) ->
  compute_whitened_residual_vector E g a = Err AssertionError /\
  compute_cost E g a = Err AssertionError /\
  compute_joint_nll E ln det g a = Err AssertionError /\
  compute_whitened_residual_jacobian E g a r = Err AssertionError.
Proof.
  intros Hg (ND & HL & Hs) Hne.
  assert (He : update_storage_layout C a (g_layout g) = Err AssertionError).
  { apply update_err. right; right. rewrite HL, (ig_layout _ _ _ Hg). unfold graph_layout. fold C.
    pose proof (mentioned_nodup fs) as NDm. split; [apply make_layout_nodup; auto|]. split; [apply make_layout_nodup; auto|].
    intros H. apply Hne. intros v. specialize (H v). rewrite !lay_vars in H by auto. rewrite !order_in in H. exact H. }
  unfold compute_cost, compute_joint_nll, compute_whitened_residual_vector, compute_whitened_residual_jacobian.
  fold C. rewrite He. auto.
Qed.
End Layout.

(* ---- real arithmetic ---- *)
Section Real.
Local Open Scope R_scope.
Variable E : env R.
Let C := e_cls E.

Lemma traverse_forall2 {A B} (F : A -> result B) l ws : traverse F l = Ok ws <-> Forall2 (fun x w => F x = Ok w) l ws.
Proof.
  split.
  - revert ws; induction l as [|x l IH]; simpl; intros ws H; [injection H as <-; constructor|].
    destruct (F x) as [y|] eqn:Ef; simpl in H; [|discriminate]. destruct (traverse F l) as [ys|]; simpl in H; [|discriminate].
    injection H as <-. constructor; auto.
  - induction 1 as [|x w l ws Hx Hf IH]; simpl; auto. rewrite Hx. simpl. rewrite IH. auto.
Qed.

Lemma sumsq_concat (ws : list (list R)) : sumsq (concat ws) = vsum (map sumsq ws).
Proof. induction ws as [|w ws IH]; simpl; [auto|]. rewrite sumsq_app, IH, vsum_cons. auto. Qed.

Lemma forall2_perm {A B} (P : A -> B -> Prop) l l' ws : Permutation l l' -> Forall2 P l ws ->
  exists ws', Permutation ws ws' /\ Forall2 P l' ws'.
Proof.
  intros Hp. revert ws. induction Hp as [|x l l' Hp IH|x y l|l1 l2 l3 H1 IH1 H2 IH2]; intros ws Hf.
  - inversion Hf; subst. exists []; auto.
  - inversion Hf; subst. destruct (IH _ H3) as (ws' & Ha & Hb). exists (y :: ws'); auto.
  - inversion Hf as [|? w1 ? ws1 Hw1 Hf1]; subst. inversion Hf1 as [|? w2 ? ws2 Hw2 Hf2]; subst.
    exists (w2 :: w1 :: ws2). split; [constructor | auto].
  - destruct (IH1 _ Hf) as (w2 & Ha & Hb). destruct (IH2 _ Hb) as (w3 & Hc & Hd). exists w3. split; auto.
    eapply perm_trans; eauto.
Qed.

Lemma cost_ok fs g a val : (forall f, In f fs -> factor_ok f) -> fs <> [] -> is_graph E fs g -> assigns E fs a val ->
  (forall f, In f fs -> residual_shape_ok E val f) ->
  exists r ws, compute_whitened_residual_vector E g a = Ok r /\ compute_cost E g a = Ok (sumsq r, r) /\
    Forall2 (fun f w => whitened_at E val f = Ok w) fs ws /\ sumsq r = vsum (map sumsq ws).
Proof.
  intros Hok Hne Hg Ha Hsh. destruct (residual_vector_ok E fs g a val Hok Hne Hg Ha Hsh) as (ws & Hw & Hv).
  apply traverse_forall2 in Hw. destruct (forall2_perm _ _ fs _ (kgroups_perm fs) Hw) as (ws' & Hp & Hf).
  exists (concat ws), ws'. split; [auto|]. unfold compute_cost. rewrite Hv. split; auto. split; auto.
  rewrite sumsq_concat. apply vsum_perm, Permutation_map. auto.
Qed.

Lemma forall2_det {A B} (F : A -> result B) l ws ws' : Forall2 (fun x w => F x = Ok w) l ws ->
  Forall2 (fun x w => F x = Ok w) l ws' -> ws = ws'.
Proof. intros H; revert ws'; induction H; intros ws' H'; inversion H'; subst; auto. f_equal; auto. congruence. Qed.
Lemma perm_concat {A} (l l' : list (list A)) : Permutation l l' -> Permutation (concat l) (concat l').
Proof.
  induction 1; simpl; auto; [apply Permutation_app; auto | | eapply perm_trans; eauto].
  rewrite !app_assoc. apply Permutation_app_tail, Permutation_app_comm.
Qed.

Lemma cost_permutation fs fs' g g' a a' val : (forall f, In f fs -> factor_ok f) -> fs <> [] -> Permutation fs fs' ->
  is_graph E fs g -> is_graph E fs' g' -> assigns E fs a val -> assigns E fs' a' val ->
  (forall f, In f fs -> residual_shape_ok E val f) ->
  exists c r r', compute_cost E g a = Ok (c, r) /\ compute_cost E g' a' = Ok (c, r') /\ Permutation r r'.
Proof.
  intros Hok Hne Hp Hg Hg' Ha Ha' Hsh.
  assert (Hin : forall f, In f fs' -> In f fs) by (intros f; apply Permutation_in; symmetry; auto).
  destruct (residual_vector_ok E fs g a val Hok Hne Hg Ha Hsh) as (ws & Hw & Hv).
  destruct (residual_vector_ok E fs' g' a' val) as (ws' & Hw' & Hv'); auto.
  { intros ->. apply Hne. apply Permutation_nil. symmetry; auto. }
  assert (Hpp : Permutation (concat ws) (concat ws')).
  { apply traverse_forall2 in Hw, Hw'.
    assert (Hk : Permutation (concat (kgroups fs)) (concat (kgroups fs'))) by (rewrite !kgroups_perm; auto).
    destruct (forall2_perm _ _ _ _ Hk Hw) as (ws2 & Hp2 & Hf2).
    assert (ws2 = ws') by (eapply forall2_det; eauto). subst ws2.
    apply perm_concat; auto. }
  exists (sumsq (concat ws)), (concat ws), (concat ws'). unfold compute_cost. rewrite Hv, Hv'. simpl.
  split; auto. split; auto. unfold sumsq, vsq. do 2 f_equal. apply vsum_perm, Permutation_map. symmetry. auto.
Qed.
End Real.
