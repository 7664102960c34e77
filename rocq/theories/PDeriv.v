(* The sparse Jacobian is the derivative of the residual along retractions. *)
From Coq Require Import List Arith Bool Lia Permutation Reals Lra.
From Verif Require Import Num NumR Py Arr MLayout MAssign MNoise MSparse MFactor MGraph SpecLayout SpecTree SpecAssign SpecGraph SpecSparse SpecDeriv.
From Verif Require Import PBase PLayout PTree PAssign PAssign2 PAssign3 PStack PGraph PGraph2 PJac PVec PSparse PGraph3 PGraph4 PGraph5.
Import ListNotations.
Local Open Scope R_scope.

Lemma deriv_ext (f g : R -> R) l : (forall t, f t = g t) -> derivable_pt_lim f 0 l -> derivable_pt_lim g 0 l.
Proof. intros H Hd eps He. destruct (Hd eps He) as (d & H2). exists d. intros h Hh Hl. rewrite <- !H. apply H2; auto. Qed.

Lemma vderiv_len F d : vderiv F d -> forall t, length (F t) = length d.
Proof. intros (H & _); auto. Qed.

Lemma vderiv_ext F G d : (forall t, F t = G t) -> vderiv F d -> vderiv G d.
Proof.
  intros H (H1 & H2). split; [intros t; rewrite <- H; auto|]. intros k. eapply deriv_ext; [|apply H2]. intros t; simpl; rewrite H; auto.
Qed.

Lemma vdot_deriv c F d : vderiv F d -> derivable_pt_lim (fun t => vdot c (F t)) 0 (vdot c d).
Proof.
  intros (Hl & Hd). revert F d Hl Hd. induction c as [|a c IH]; intros F d Hl Hd.
  - apply (deriv_ext (fun _ => 0)); [intros; symmetry; apply vdot_nil_l|]. rewrite vdot_nil_l. apply derivable_pt_lim_const.
  - destruct d as [|y d].
    + apply (deriv_ext (fun _ => 0)); [intros t; specialize (Hl t); destruct (F t); [symmetry; apply vdot_nil_r | discriminate]|].
      rewrite vdot_nil_r. apply derivable_pt_lim_const.
    + eapply (deriv_ext (fun t => a * nth 0 (F t) 0 + vdot c (tl (F t)))).
      { intros t. specialize (Hl t). destruct (F t); [discriminate|]. rewrite vdot_cons. auto. }
      rewrite vdot_cons. apply (derivable_pt_lim_plus (fun t => a * nth 0 (F t) 0) (fun t => vdot c (tl (F t)))).
      * apply (derivable_pt_lim_scal (fun t => nth 0 (F t) 0)). apply (Hd 0%nat).
      * apply IH.
        -- intros t. specialize (Hl t). destruct (F t); simpl in *; congruence.
        -- intros k. eapply deriv_ext; [|apply (Hd (S k))]. intros t. cbv beta. specialize (Hl t). destruct (F t); [discriminate | auto].
Qed.

Lemma mvec_deriv M F d : vderiv F d -> vderiv (fun t => mvec M (F t)) (mvec M d).
Proof.
  intros H. split; [intros; rewrite !mvec_length; auto|]. intros k. revert k. induction M as [|row M IH]; intros [|k]; simpl.
  - apply derivable_pt_lim_const. - apply derivable_pt_lim_const.
  - apply vdot_deriv; auto.
  - apply IH.
Qed.

Lemma vmul_deriv c F d : length c = length d -> vderiv F d -> vderiv (fun t => vmul c (F t)) (vmul c d).
Proof.
  intros Hc (Hl & Hd). split.
  - intros t. rewrite !vmul_length; auto; rewrite Hl; auto.
  - intros k. eapply (deriv_ext (fun t => nth k c 0 * nth k (F t) 0)).
    + intros t. rewrite nth_vmul; auto. rewrite Hl; auto.
    + rewrite nth_vmul by auto. apply (derivable_pt_lim_scal (fun t => nth k (F t) 0)). apply Hd.
Qed.

Lemma app_deriv F G d e : vderiv F d -> vderiv G e -> vderiv (fun t => F t ++ G t) (d ++ e).
Proof.
  intros (H1 & H2) (H3 & H4). split; [intros; rewrite !app_length; congruence|]. intros k.
  destruct (Nat.lt_ge_cases k (length d)) as [Hk|Hk].
  - rewrite app_nth1 by auto. eapply deriv_ext; [|apply H2]. intros t. simpl. rewrite app_nth1; auto. rewrite H1; auto.
  - rewrite app_nth2 by auto. eapply deriv_ext; [|apply H4]. intros t. simpl. rewrite app_nth2; rewrite H1; auto.
Qed.

Lemma concat_deriv {A} (F : A -> R -> list R) (D : A -> list R) l : (forall a, In a l -> vderiv (F a) (D a)) ->
  vderiv (fun t => concat (map (fun a => F a t) l)) (concat (map D l)).
Proof.
  induction l as [|a l IH]; intros H; simpl.
  - split; auto. intros k. destruct k; apply derivable_pt_lim_const.
  - apply app_deriv; [apply H; left; auto | apply IH; intros; apply H; right; auto].
Qed.

Lemma mvec_mmul c (W J : list (list R)) b : Forall (fun row => length row = c) J -> length b = c ->
  mvec (mmul c W J) b = mvec W (mvec J b).
Proof.
  intros HJ Hb. unfold mmul, mvec at 1 2. rewrite map_map. apply map_ext. intros w.
  assert (Hs : forall f : nat -> R, vdot (map f (seq 0 c)) b = vsum (map (fun j => f j * nth j b 0) (seq 0 c))).
  { intros f. rewrite (vdot_seq _ _ c) by (auto; rewrite map_length, seq_length; auto).
    apply vsum_map_ext. intros j Hj. apply in_seq in Hj. rewrite (nth_map' f _ j 0 0%nat) by (rewrite seq_length; lia).
    rewrite seq_nth by lia. auto. }
  rewrite Hs. clear Hs. revert w. induction HJ as [|row J Hr HJ IH]; intros w.
  - simpl. rewrite vdot_nil_r. apply vsum_map_zero. intros j _. lra.
  - destruct w as [|a w].
    + rewrite vdot_nil_l. apply vsum_map_zero. intros j _. rewrite vdot_nil_l. lra.
    + rewrite mvec_cons, vdot_cons, <- IH. rewrite (vdot_seq row b c) by auto.
      rewrite <- vsum_map_scale, <- vsum_map_plus. apply vsum_map_ext. intros j _.
      unfold mcol; simpl. rewrite vdot_cons. rn. lra.
Qed.

Lemma mvec_vzero (M : list (list R)) n : mvec M (vzero n) = vzero (length M).
Proof. induction M as [|row M IH]; auto. rewrite mvec_cons, IH, vdot_zero_r. auto. Qed.
Lemma vmul_vzero (c : list R) : vmul c (vzero (length c)) = vzero (length c).
Proof. induction c as [|a c IH]; auto. simpl length. rewrite vzero_S. change (a * 0 :: vmul c (vzero (length c)) = 0 :: vzero (length c)). rewrite IH. f_equal. lra. Qed.
Lemma vmul_vadd (c a b : list R) : length a = length b -> length c = length a -> vmul c (vadd a b) = vadd (vmul c a) (vmul c b).
Proof.
  revert a b; induction c as [|x c IH]; intros [|y a] [|z b]; simpl; intros; try discriminate; auto.
  change (x * (y + z) :: vmul c (vadd a b) = x * y + x * z :: vadd (vmul c a) (vmul c b)). f_equal; [lra | apply IH; congruence].
Qed.
Lemma mvec_diag (c : list R) J b : length c = length J -> mvec (zipw (fun x row => map (nmul x) row) c J) b = vmul c (mvec J b).
Proof.
  revert J; induction c as [|x c IH]; intros [|row J]; simpl; intros; try discriminate; auto.
  unfold vmul in *. simpl. f_equal; [|apply IH; congruence]. apply (vdot_scale_l x row b).
Qed.

Section Noise.
Variable C : cenv (T := R).
Variable L : layout.
Variable x : list R.

Lemma slots_length rd vs Ws : Forall2 (fun v W => length W = rd) vs Ws -> length (slots_times C L x rd vs Ws) = rd.
Proof.
  unfold slots_times. induction 1 as [|v W vs Ws H1 H IH]; simpl; [apply vzero_length|].
  rewrite vadd_length; rewrite mvec_length; congruence.
Qed.

Lemma whiten_slots rd (n : noise R) vs Js Ws r : linear_noise n -> noise_ok n -> noise_dim n = rd -> length r = rd ->
  Forall2 (fun v J => length J = rd /\ Forall (fun row => length row = vldim C v) J) vs Js ->
  (forall v, In v vs -> length (block C L x v) = vldim C v) ->
  traverse (fun J => whiten_jacobian n J r) Js = Ok Ws ->
  whiten_residual n (slots_times C L x rd vs Js) = Ok (slots_times C L x rd vs Ws).
Proof.
  intros Hlin Hn Hd Hr Hf Hb HT.
  assert (Hlen : length (slots_times C L x rd vs Js) = rd).
  { apply slots_length. clear - Hf. induction Hf; constructor; tauto. }
  apply traverse_forall2 in HT.
  destruct n as [W|D|]; simpl in *; [| |tauto].
  - destruct Hn as (Ha & k & Hk). rewrite Hk in *. simpl in Hd. subst k. rewrite Hlen, Nat.eqb_refl. f_equal.
    set (M := chunks rd rd (a_data W)) in *. assert (HM : length M = rd) by apply chunks_length.
    clear Hlen Ha. revert Ws HT Hb. unfold slots_times.
    induction Hf as [|v J vs Js (H1 & H2) Hf IH]; intros Ws HT Hb; inversion_clear HT as [|? W1 ? Ws1 HW HT1]; simpl.
    + rewrite mvec_vzero. congruence.
    + rewrite mvec_add.
      * rewrite (IH Ws1) by (auto; intros; apply Hb; right; auto). f_equal.
        rewrite H1, Nat.eqb_refl in HW. injection HW as <-. destruct J as [|row J].
        -- assert (HM0 : M = []) by (apply length_zero_iff_nil; simpl in H1; lia). rewrite HM0. auto.
        -- assert (Hc : ncols (row :: J) = vldim C v) by (inversion H2; subst; auto).
           rewrite Hc. symmetry. apply mvec_mmul; auto. apply Hb. left; auto.
      * rewrite mvec_length, H1. symmetry. apply slots_length. clear - Hf. induction Hf; constructor; tauto.
  - destruct Hn as (Ha & k & Hk). rewrite Hk in *. simpl in Hd. subst k. rewrite Hlen.
    rewrite (proj2 (shape_eqb_ok [rd] [rd]) eq_refl). cbn [assert_ bind]. f_equal.
    apply Nat.eqb_eq in Ha. rewrite Hk in Ha. simpl in Ha. rewrite Nat.mul_1_r in Ha.
    clear Hlen. revert Ws HT Hb. unfold slots_times.
    induction Hf as [|v J vs Js (H1 & H2) Hf IH]; intros Ws HT Hb; inversion_clear HT as [|? W1 ? Ws1 HW HT1]; simpl.
    + rewrite <- Ha. apply vmul_vzero.
    + assert (Hl2 : length (fold_right vadd (vzero rd) (zipw (fun v0 W => mvec W (block C L x v0)) vs Js)) = rd).
      { apply slots_length. clear - Hf. induction Hf; constructor; tauto. }
      rewrite vmul_vadd; rewrite ?mvec_length; [|congruence..].
      rewrite (IH Ws1) by (auto; intros; apply Hb; right; auto). f_equal.
      rewrite H1, Hr in HW. rewrite (proj2 (shape_eqb_ok [rd] [rd]) eq_refl) in HW. simpl in HW. injection HW as <-.
      symmetry. apply mvec_diag. congruence.
Qed.

Lemma whiten_deriv (n : noise R) F d : linear_noise n -> noise_ok n -> length d = noise_dim n -> vderiv F d ->
  exists w, whiten_residual n d = Ok w /\ vderiv (fun t => unwrap [] (whiten_residual n (F t))) w.
Proof.
  intros Hlin Hn Hd HF. pose proof (vderiv_len _ _ HF) as Hl.
  destruct n as [W|D|]; simpl in *; [| |tauto]; destruct Hn as (Ha & k & Hk); rewrite Hk in *; simpl in Hd; subst k.
  - rewrite Nat.eqb_refl. eexists; split; [reflexivity|]. eapply vderiv_ext; [|apply mvec_deriv; exact HF].
    intros t. simpl. rewrite Hl, Nat.eqb_refl. auto.
  - rewrite (proj2 (shape_eqb_ok [length d] [length d]) eq_refl). simpl. eexists; split; [reflexivity|].
    apply Nat.eqb_eq in Ha. rewrite Hk in Ha. simpl in Ha.
    eapply vderiv_ext; [|apply (vmul_deriv (a_data D)); [|exact HF]; lia].
    intros t. rewrite Hl, (proj2 (shape_eqb_ok [length d] [length d]) eq_refl). auto.
Qed.
End Noise.

Section Deriv.
Variable E : env R.
Let C := e_cls E.

Lemma block_length fs x v : length x = l_dim (graph_layout E fs true) -> In v (mentioned fs) ->
  length (block C (graph_layout E fs true) x v) = vldim C v.
Proof.
  intros Hx Hv. pose proof (mentioned_nodup fs) as ND.
  pose proof (proj1 (lay_index_mem C (mentioned fs) true ND v) Hv) as (i & Hi).
  pose proof (lay_bound C (mentioned fs) true ND v i Hi) as Hb.
  unfold block, graph_layout in *. fold C in Hx. fold C. rewrite Hi. rewrite lay_local by auto.
  rewrite slice_length by (rewrite ?Hx; lia). change (vdim C true v) with (vldim C v). lia.
Qed.

Lemma block_vscale L t x v : block C L (vscale t x) v = vscale t (block C L x v).
Proof.
  unfold block. destruct (dict_get (l_index L) v) as [i|]; auto. unfold slice, vscale. rewrite skipn_map, firstn_map. auto.
Qed.

Lemma jacobian_derivative fs g a vs r val x (valt : R -> var -> pytree R) :
  classes_ok C -> (forall f, In f fs -> factor_ok f) -> fs <> [] -> is_graph E fs g ->
  wf_assign C vs false a -> (forall t, of_type t vs = of_type t (mentioned fs)) ->
  (forall v, In v vs -> get_value C a v = Ok (val v)) ->
  (forall f, In f fs -> jacobian_shape_ok E val f) -> (forall f, In f fs -> linear_noise (f_noise f)) ->
  length r = total residual_dim fs -> total residual_dim fs <> 0%nat ->
  length x = l_dim (graph_layout E fs true) ->
  (forall t v, In v vs -> retract (C (v_ty v)) (val v) (vscale t (block C (graph_layout E fs true) x v)) = Ok (valt t v) /\
     value_ok (C (v_ty v)) (valt t v)) ->
  (forall f, In f fs -> vderiv (fun t => residual_at E (valt t) f)
     (slots_times C (graph_layout E fs true) x (residual_dim f) (f_vars f) (jacobians_at E val f))) ->
  exists A y rt, compute_whitened_residual_jacobian E g a r = Ok A /\ matmul A x = Ok y /\
    (forall t, exists a', manifold_retract C a (mkAssign (vscale t x) (graph_layout E fs true)) = Ok a' /\
       compute_whitened_residual_vector E g a' = Ok (rt t)) /\
    vderiv rt y.
Proof.
  intros CO Hok Hne Hg Hwf Hty Hval Hj Hlin Hr Hpos Hx Hret Hder.
  assert (Hvs : forall v, In v vs <-> In v (mentioned fs)).
  { intros v. specialize (Hty (v_ty v)). unfold of_type in Hty. split; intros H.
    - assert (Hf : In v (filter (fun w => Nat.eqb (v_ty w) (v_ty v)) vs)) by (apply filter_In; split; auto; apply Nat.eqb_refl).
      rewrite Hty in Hf. apply filter_In in Hf. tauto.
    - assert (Hf : In v (filter (fun w => Nat.eqb (v_ty w) (v_ty v)) (mentioned fs))) by (apply filter_In; split; auto; apply Nat.eqb_refl).
      rewrite <- Hty in Hf. apply filter_In in Hf. tauto. }
  assert (Ha : assigns E fs a val) by (exists vs; auto).
  destruct (jacobian_action E fs g a r val Hok Hj Hg Ha Hr Hpos) as (A & EA & HA & Hsh & _ & Hact).
  set (rt := fun t => concat (map (fun fo => unwrap [] (whitened_at E (valt t) (fst fo))) (place residual_dim 0 (concat (kgroups fs))))).
  eexists A, _, rt. split; [exact EA|]. split; [apply Hact; auto|].
  assert (Hfd : forall f, In f fs -> forall t, residual_shape_ok E (valt t) f).
  { intros f Hf t. unfold residual_shape_ok. rewrite (vderiv_len _ _ (Hder f Hf)). apply slots_length.
    pose proof (Hj f Hf) as H. unfold jacobian_shape_ok in H. clear - H. induction H; constructor; tauto. }
  split.
  - intros t. destruct (retract_values C vs (mentioned fs) a (mkAssign (vscale t x) (graph_layout E fs true)) (fun v => v) (valt t) CO Hwf) as (a' & Ea' & HLa & Hwf' & Hv').
    + repeat split; [apply mentioned_nodup|]. simpl. rewrite vscale_length. auto.
    + intros ty. rewrite map_id. auto.
    + intros v Hv. destruct (Hret t v Hv) as (H1 & H2). exists (val v). split; auto. split; auto. simpl. rewrite block_vscale. auto.
    + exists a'. split; auto.
      assert (Ha' : assigns E fs a' (valt t)) by (exists vs; auto).
      destruct (residual_vector_ok E fs g a' (valt t) Hok Hne Hg Ha') as (ws & Hw & Hv); [auto|].
      rewrite Hv. f_equal. unfold rt. f_equal. apply traverse_forall2 in Hw. clear - Hw.
      revert Hw. generalize (concat (kgroups fs)) 0%nat. intros l s Hw. revert s. induction Hw as [|f w l ws Hf Hw IH]; intros s; simpl; auto.
      rewrite Hf. simpl. f_equal. auto.
  - unfold rt. apply (concat_deriv (fun fo t => unwrap [] (whitened_at E (valt t) (fst fo)))).
    intros [f o] Hin. pose proof (placed _ _ _ Hin) as (Hf & Hb). simpl fst.
    destruct (wjacs_ok E val r (f, o)) as (HW1 & HW2); [split; [apply Hok; auto | apply Hj; auto] | simpl; lia|].
    assert (Hp : length (part r (f, o)) = residual_dim f) by (unfold part; simpl; rewrite slice_length; lia).
    assert (Hsl : length (slots_times C (graph_layout E fs true) x (residual_dim f) (f_vars f) (jacobians_at E val f)) = noise_dim (f_noise f)).
    { rewrite slots_length; auto. pose proof (Hj f Hf) as H. unfold jacobian_shape_ok in H. clear - H. induction H; constructor; tauto. }
    destruct (whiten_deriv (f_noise f) _ _ (Hlin f Hf) (proj1 (Hok f Hf)) Hsl (Hder f Hf)) as (w & Hw & Hd).
    rewrite (whiten_slots C (graph_layout E fs true) x (residual_dim f) (f_noise f) (f_vars f) (jacobians_at E val f) (wjacs E val r (f, o)) (part r (f, o))) in Hw; auto.
    + injection Hw as <-. exact Hd.
    + apply (proj1 (Hok f Hf)).
    + apply (Hj f Hf).
    + intros v Hv. apply block_length; auto. apply mentioned_in. eauto.
Qed.
End Deriv.
