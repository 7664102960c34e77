(* Layout changes, stacked values, retraction *)
From Coq Require Import List Arith Bool Lia Permutation.
From Verif Require Import Num Py Arr PBase MLayout SpecLayout SpecTree PLayout PTree MAssign SpecAssign PAssign.
Import ListNotations.

Section A2.
Context {T : Type} {N : Num T}.
Variable C : cenv (T := T).

(* ---- idempotence of ordering ---- *)
Lemma of_type_other t t' l : t <> t' -> of_type t (of_type t' l) = [].
Proof.
  intros H. unfold of_type. induction l as [|v r IH]; simpl; auto.
  destruct (Nat.eqb (v_ty v) t') eqn:E; simpl; auto.
  apply Nat.eqb_eq in E. destruct (Nat.eqb (v_ty v) t) eqn:E2; auto. apply Nat.eqb_eq in E2; congruence.
Qed.
Lemma of_type_idem t l : of_type t (of_type t l) = of_type t l.
Proof.
  unfold of_type. apply filter_all_true. intros v Hv. apply filter_In in Hv. tauto.
Qed.
Lemma of_type_app t l1 l2 : of_type t (l1 ++ l2) = of_type t l1 ++ of_type t l2.
Proof. apply filter_app. Qed.
Lemma of_type_nil t vs : ~ In t (map v_ty vs) -> of_type t vs = [].
Proof.
  unfold of_type. induction vs as [|v r IH]; simpl; intros H; auto.
  destruct (Nat.eqb (v_ty v) t) eqn:E; [apply Nat.eqb_eq in E; tauto | auto].
Qed.
Lemma of_type_order t vs : of_type t (order vs) = of_type t vs.
Proof.
  unfold order.
  assert (H : forall ts, NoDup ts ->
    of_type t (flat_map (fun t => of_type t vs) ts) = if mem t ts then of_type t vs else []).
  { induction 1 as [|x ts Hx Hts IH]; simpl; auto.
    rewrite of_type_app, IH. change (mem t (x :: ts)) with (Nat.eqb t x || mem t ts).
    destruct (Nat.eqb t x) eqn:E; simpl.
    - apply Nat.eqb_eq in E; subst. rewrite of_type_idem. rewrite (proj2 (mem_not_in _ _)) by auto.
      apply app_nil_r.
    - apply Nat.eqb_neq in E. rewrite of_type_other by auto. auto. }
  rewrite H by apply firsts_nodup. destruct (mem t (firsts (map v_ty vs))) eqn:E; auto.
  apply mem_not_in in E. rewrite firsts_in in E. symmetry. apply of_type_nil; auto.
Qed.
Lemma order_order vs : order (order vs) = order vs.
Proof.
  unfold order at 1. rewrite firsts_types_order. unfold order at 2.
  rewrite !flat_map_concat_map. f_equal. apply map_ext. intros t. apply of_type_order.
Qed.
Lemma make_layout_order vs local : NoDup vs -> make_layout C (order vs) local = make_layout C vs local.
Proof.
  intros ND. rewrite !make_layout_closed by (auto; apply order_nodup; auto).
  unfold closed_layout. rewrite order_order.
  assert (E : groups (order vs) = groups vs).
  { unfold groups. rewrite firsts_types_order. apply map_ext. intros t. rewrite of_type_order. auto. }
  rewrite E. auto.
Qed.

(* ---- layout equality ---- *)
Definition layout_nodup (L : layout) : Prop :=
  NoDup (map fst (l_index L)) /\ NoDup (map fst (l_tindex L)) /\ NoDup (map fst (l_tcount L)).

Lemma make_layout_nodup vs local : NoDup vs -> layout_nodup (make_layout C vs local).
Proof.
  intros ND. split; [|split].
  - apply lay_vars_nodup; auto.
  - change (map fst (l_tindex (make_layout C vs local))) with (get_variable_types (make_layout C vs local)).
    rewrite lay_types by auto. apply firsts_nodup.
  - rewrite make_layout_closed by auto. simpl. rewrite map_map. simpl.
    change (NoDup (map fst (groups vs))). rewrite groups_fst. apply firsts_nodup.
Qed.

Lemma layout_eqb_ok L1 L2 : layout_nodup L1 -> layout_nodup L2 -> (layout_eqb L1 L2 = true <-> same_layout L1 L2).
Proof.
  intros (A1 & A2 & A3) (B1 & B2 & B3). unfold layout_eqb, same_layout.
  rewrite !andb_true_iff, Nat.eqb_eq, Bool.eqb_true_iff.
  rewrite !dict_eqb_ok by (auto; apply Nat.eqb_eq). tauto.
Qed.
Lemma same_layout_refl L : same_layout L L.
Proof. unfold same_layout; auto. Qed.
Lemma same_layout_sym L1 L2 : same_layout L1 L2 -> same_layout L2 L1.
Proof. unfold same_layout. intuition congruence. Qed.
Lemma same_layout_trans L1 L2 L3 : same_layout L1 L2 -> same_layout L2 L3 -> same_layout L1 L3.
Proof. unfold same_layout. intuition congruence. Qed.

Lemma same_layout_block L1 L2 (st : list T) v : same_layout L1 L2 -> block C L1 st v = block C L2 st v.
Proof. intros (H1 & _ & H2 & _). unfold block. rewrite H1, H2. auto. Qed.

Lemma same_layout_vars vs1 vs2 local1 local2 : NoDup vs1 -> NoDup vs2 ->
  same_layout (make_layout C vs1 local1) (make_layout C vs2 local2) -> forall v, In v vs1 <-> In v vs2.
Proof.
  intros N1 N2 (_ & _ & H & _) v. rewrite (lay_index_mem C vs1 local1 N1), (lay_index_mem C vs2 local2 N2).
  rewrite H. tauto.
Qed.

(* ---- update_storage_layout ---- *)
Lemma shuffle_fold vs1 vs2 local l sh : NoDup vs1 -> NoDup vs2 -> (forall v, In v vs1 <-> In v vs2) ->
  NoDup l -> (forall v, In v l -> In v vs2) -> length sh = l_dim (make_layout C vs2 local) ->
  exists sh', foldM (shuffle_step C (make_layout C vs1 local) (make_layout C vs2 local)) l sh = Ok sh' /\
    length sh' = length sh /\
    (forall v si ti, In v l -> dict_get (l_index (make_layout C vs1 local)) v = Some si ->
       dict_get (l_index (make_layout C vs2 local)) v = Some ti ->
       slice sh' ti (ti + vdim C local v) = seq si (vdim C local v)) /\
    (forall k, (forall v ti, In v l -> dict_get (l_index (make_layout C vs2 local)) v = Some ti ->
         k < ti \/ ti + vdim C local v <= k) -> nth_error sh' k = nth_error sh k).
Proof.
  intros N1 N2 Hvs. revert sh. induction l as [|w l IH]; intros sh Nl Hl Hlen.
  - exists sh; simpl; repeat split; auto; tauto.
  - inversion Nl; subst.
    assert (Hw2 : In w vs2) by (apply Hl; left; auto). assert (Hw1 : In w vs1) by (apply Hvs; auto).
    apply (lay_index_mem C vs1 local N1) in Hw1. destruct Hw1 as (si & Hsi).
    apply (lay_index_mem C vs2 local N2) in Hw2. destruct Hw2 as (ti & Hti).
    assert (Hstep : exists sh1, shuffle_step C (make_layout C vs1 local) (make_layout C vs2 local) sh w = Ok sh1 /\
       length sh1 = length sh /\ slice sh1 ti (ti + vdim C local w) = seq si (vdim C local w) /\
       (forall k, k < ti \/ ti + vdim C local w <= k -> nth_error sh1 k = nth_error sh k)).
    { unfold shuffle_step, dict_getE. rewrite Hsi, Hti. simpl. rewrite lay_local by auto.
      apply at_set_ok; [lia | rewrite Hlen; apply (lay_bound C vs2 local N2); auto |].
      unfold arange. rewrite seq_length. lia. }
    destruct Hstep as (sh1 & E1 & Hl1 & Hs1 & Ho1).
    destruct (IH sh1) as (sh' & E2 & Hl2 & Hs2 & Ho2); auto; [intros; apply Hl; right; auto | congruence |].
    exists sh'. simpl. rewrite E1. simpl. split; auto. split; [congruence|]. split.
    + intros v si' ti' [->|Hv] Hsi' Hti'.
      * assert (si' = si) by congruence. assert (ti' = ti) by congruence. subst.
        rewrite <- Hs1. apply slice_ext. intros k Hk. apply Ho2.
        intros u tu Hu Htu. assert (u <> v) by congruence.
        destruct (lay_disjoint C vs2 local N2 u tu v ti Htu Hti); auto; lia.
      * eapply Hs2; eauto.
    + intros k Hk. rewrite Ho2.
      * apply Ho1. apply (Hk w ti); simpl; auto.
      * intros v tv Hv Htv. apply (Hk v tv); simpl; auto.
Qed.

Lemma update_ok vs1 vs2 local a : wf_assign C vs1 local a -> NoDup vs2 -> (forall v, In v vs1 <-> In v vs2) ->
  exists a', update_storage_layout C a (make_layout C vs2 local) = Ok a' /\
    same_layout (as_layout a') (make_layout C vs2 local) /\
    (a' = a \/ as_layout a' = make_layout C vs2 local) /\
    length (as_storage a') = l_dim (make_layout C vs2 local) /\
    forall v, In v vs2 -> block C (make_layout C vs2 local) (as_storage a') v = block C (as_layout a) (as_storage a) v.
Proof.
  intros (N1 & HL & Hs) N2 Hvs. unfold update_storage_layout.
  assert (Hp : Permutation vs1 vs2) by (apply NoDup_Permutation; auto).
  assert (Hdim : l_dim (make_layout C vs1 local) = l_dim (make_layout C vs2 local)).
  { rewrite !lay_dim by auto. apply total_perm; auto. }
  destruct (layout_eqb (as_layout a) (make_layout C vs2 local)) eqn:E.
  - rewrite HL in E. apply layout_eqb_ok in E; try (apply make_layout_nodup; auto).
    exists a. rewrite HL. repeat split; auto; try apply E.
    + rewrite Hs, HL. auto.
    + intros v Hv. symmetry. apply same_layout_block; auto.
  - rewrite HL, Hdim, Nat.eqb_refl. cbn [assert_ bind]. rewrite !lay_local by auto.
    rewrite Bool.eqb_reflx. cbn [assert_ bind].
    rewrite (proj2 (set_eqb_ok _ _)).
    2:{ intros v. rewrite !lay_vars, !order_in by auto. auto. }
    cbn [assert_ bind]. rewrite lay_vars by auto.
    destruct (shuffle_fold vs1 vs2 local (order vs2) (repeat 0 (l_dim (make_layout C vs2 local)))) as (sh & E2 & Hl & Hsh & _); auto.
    + apply order_nodup; auto.
    + intros v Hv. apply order_in; auto.
    + apply repeat_length.
    + rewrite E2. cbn [bind].
      assert (Hlst : length (gather n0 (as_storage a) sh) = l_dim (make_layout C vs2 local)).
      { unfold gather. rewrite map_length, Hl. apply repeat_length. }
      rewrite Hlst, Hs, HL, Hdim, Nat.eqb_refl. cbn [assert_ bind].
      eexists; split; [reflexivity|]. simpl. split; [apply same_layout_refl|]. split; [auto|]. split; auto.
      intros v Hv. pose proof Hv as Hv1. apply Hvs in Hv1. pose proof Hv as Hv2.
      apply (lay_index_mem C vs1 local N1) in Hv1. destruct Hv1 as (si & Hsi).
      apply (lay_index_mem C vs2 local N2) in Hv. destruct Hv as (ti & Hti).
      unfold block. rewrite Hsi, Hti, !lay_local by auto.
      assert (Hv' : In v (order vs2)) by (apply order_in; auto).
      specialize (Hsh v si ti Hv' Hsi Hti).
      pose proof (lay_bound C vs1 local N1 v si Hsi) as B1.
      pose proof (lay_bound C vs2 local N2 v ti Hti) as B2.
      apply list_ext. intros k. destruct (Nat.lt_ge_cases k (vdim C local v)) as [Hk|Hk].
      * rewrite !nth_error_slice by lia.
        assert (Hnth : nth_error sh (ti + k) = Some (si + k)).
        { rewrite <- (nth_error_slice sh ti (ti + vdim C local v)) by lia. rewrite Hsh.
          apply nth_error_seq; auto. }
        apply (gather_nth n0); auto. rewrite Hs, HL. lia.
      * transitivity (@None T); [|symmetry]; apply nth_error_None; unfold slice; rewrite firstn_length; lia.
Qed.

Lemma update_err a L : 
  (l_dim (as_layout a) <> l_dim L \/ l_local (as_layout a) <> l_local L \/
   (layout_nodup (as_layout a) /\ layout_nodup L /\
    ~ (forall v, In v (get_variables (as_layout a)) <-> In v (get_variables L)))) ->
  update_storage_layout C a L = Err AssertionError.
Proof.
  intros H. unfold update_storage_layout.
  destruct (layout_eqb (as_layout a) L) eqn:E.
  - exfalso. destruct H as [H|[H|(H1 & H2 & H)]].
    + unfold layout_eqb in E. rewrite !andb_true_iff, Nat.eqb_eq in E. tauto.
    + unfold layout_eqb in E. rewrite !andb_true_iff, Bool.eqb_true_iff in E. tauto.
    + apply H. apply layout_eqb_ok in E; auto. destruct E as (_ & _ & E & _).
      intros v. unfold get_variables, dict_keys. rewrite !dict_get_some, E. tauto.
  - destruct (Nat.eqb (l_dim (as_layout a)) (l_dim L)) eqn:E1; simpl; auto.
    apply Nat.eqb_eq in E1.
    destruct (Bool.eqb (l_local (as_layout a)) (l_local L)) eqn:E2; simpl; auto.
    apply (proj1 (Bool.eqb_true_iff _ _)) in E2.
    destruct H as [H|[H|(H1 & H2 & H)]]; try congruence.
    destruct (set_eqb (get_variables (as_layout a)) (get_variables L)) eqn:E3; simpl; auto.
    exfalso; apply H. apply set_eqb_ok; auto.
Qed.

(* values survive; local assignments: blocks survive *)
Lemma block_get_value vs a b v : classes_ok C -> wf_assign C vs false a -> In v vs ->
  block C (as_layout b) (as_storage b) v = block C (as_layout a) (as_storage a) v ->
  l_local (as_layout b) = false -> dict_get (l_index (as_layout b)) v <> None ->
  get_value C b v = get_value C a v.
Proof.
  intros CO Hwf Hv Hb Hloc Hin. rewrite (get_value_block C vs a v Hwf Hv).
  unfold get_value, dict_getE. unfold block in Hb at 1.
  destruct (dict_get (l_index (as_layout b)) v); [|congruence]. simpl. rewrite Hloc in Hb.
  rewrite <- Hb. auto.
Qed.

Lemma update_values vs1 vs2 a : classes_ok C -> wf_assign C vs1 false a -> NoDup vs2 -> (forall v, In v vs1 <-> In v vs2) ->
  exists a', update_storage_layout C a (make_layout C vs2 false) = Ok a' /\
    same_layout (as_layout a') (make_layout C vs2 false) /\
    forall v, get_value C a' v = get_value C a v.
Proof.
  intros CO Hwf N2 Hvs. destruct (update_ok vs1 vs2 false a Hwf N2 Hvs) as (a' & E & HL & _ & _ & Hb).
  exists a'. repeat split; auto; try apply HL. intros v.
  destruct (in_dec eqb_dec v vs1) as [Hv|Hv].
  - eapply block_get_value; eauto.
    + rewrite <- Hb by (apply Hvs; auto). apply same_layout_block; auto.
    + destruct HL as (HL & _). rewrite HL. apply lay_local; auto.
    + destruct HL as (_ & _ & HL & _). rewrite HL. intros Hc.
      apply Hvs in Hv. apply (lay_index_mem C vs2 false N2) in Hv. destruct Hv; congruence.
  - rewrite (get_value_foreign C vs1 false a v Hwf Hv).
    unfold get_value, dict_getE. destruct HL as (_ & _ & HL & _). rewrite HL.
    destruct (dict_get (l_index (make_layout C vs2 false)) v) eqn:E2; auto.
    exfalso. apply Hv, Hvs. apply (lay_index_mem C vs2 false N2). eauto.
Qed.

Lemma update_round_trip vs1 vs2 local a a' a'' : wf_assign C vs1 local a -> NoDup vs2 ->
  update_storage_layout C a (make_layout C vs2 local) = Ok a' ->
  update_storage_layout C a' (make_layout C vs1 local) = Ok a'' -> as_storage a'' = as_storage a.
Proof.
  intros Hwf N2 E1 E2. pose proof Hwf as (N1 & HL & Hs).
  assert (Hvs : forall v, In v vs1 <-> In v vs2).
  { destruct (set_eqb (get_variables (as_layout a)) (get_variables (make_layout C vs2 local))) eqn:E.
    - rewrite set_eqb_ok in E. intros v. specialize (E v). rewrite HL, !lay_vars, !order_in in E by auto. auto.
    - exfalso. rewrite update_err in E1; [discriminate|]. right; right. rewrite HL.
      repeat split; try (apply make_layout_nodup; auto). intros H.
      assert (E' : set_eqb (get_variables (as_layout a)) (get_variables (make_layout C vs2 local)) = true).
      { apply set_eqb_ok. rewrite HL. auto. }
      congruence. }
  destruct (update_ok vs1 vs2 local a Hwf N2 Hvs) as (x & Ex & Hx1 & Hx2 & Hx3 & Hx4).
  assert (x = a') by congruence; subst x.
  destruct Hx2 as [->|HL'].
  - destruct (update_ok vs1 vs1 local a Hwf N1 (fun v => iff_refl _)) as (y & Ey & Hy1 & Hy2 & Hy3 & Hy4).
    assert (y = a'') by congruence; subst y.
    apply (blocks_ext C vs1 local N1); auto; [rewrite <- HL; auto|].
    intros v Hv. rewrite Hy4 by auto. rewrite HL. auto.
  - assert (Hwf' : wf_assign C vs2 local a') by (repeat split; auto; congruence).
    destruct (update_ok vs2 vs1 local a' Hwf' N1 (fun v => iff_sym (Hvs v))) as (y & Ey & Hy1 & Hy2 & Hy3 & Hy4).
    assert (y = a'') by congruence; subst y.
    apply (blocks_ext C vs1 local N1); auto; [rewrite <- HL; auto|].
    intros v Hv. rewrite Hy4 by auto. rewrite HL'. rewrite Hx4 by (apply Hvs; auto). rewrite HL. auto.
Qed.

(* ---- dict round trip ---- *)
Lemma dict_round_trip vs a : classes_ok C -> vs <> [] -> wf_assign C vs false a ->
  exists d, as_dict C a = Ok d /\ make_from_dict C d = Ok a.
Proof.
  intros CO Hne Hwf. pose proof Hwf as (ND & HL & Hs).
  destruct (as_dict_ok C CO vs a Hwf) as (d & Ed & Hk & Hd). exists d. split; auto.
  destruct (dict_values C CO d) as (b & Eb & Hwfb & Hb & _).
  - rewrite Hk. apply order_nodup; auto.
  - intros ->. simpl in Hk. symmetry in Hk. apply (order_nonempty vs Hne Hk).
  - intros v x Hvx. apply Hd in Hvx. destruct Hvx as [Hv Hx].
    destruct (get_value_ok C CO vs a v Hwf Hv) as (y & Ey & Hy & _). congruence.
  - rewrite Eb. f_equal.
    assert (Hwfb' : wf_assign C vs false b).
    { destruct Hwfb as (_ & HLb & Hsb). rewrite Hk, make_layout_order in HLb by auto.
      repeat split; auto. }
    apply (values_ext C CO vs); auto. intros v Hv.
    destruct (get_value_ok C CO vs a v Hwf Hv) as (y & Ey & _). rewrite Ey. apply Hb. apply Hd; auto.
Qed.

(* ---- stacked values ---- *)
Lemma run_rows vs local st t ti : NoDup vs -> length st = l_dim (make_layout C vs local) ->
  dict_get (l_tindex (make_layout C vs local)) t = Some ti ->
  reshape2 (length (of_type t vs)) (tdim C local t)
    (slice st ti (ti + tdim C local t * length (of_type t vs))) =
  Ok (map (block C (make_layout C vs local) st) (of_type t vs)).
Proof.
  intros ND Hst Hti. unfold reshape2.
  pose proof (lay_run_bound C vs local ND t ti Hti) as HB.
  rewrite slice_length by lia.
  replace (ti + tdim C local t * length (of_type t vs) - ti) with (length (of_type t vs) * tdim C local t) by lia.
  rewrite Nat.eqb_refl. f_equal. apply list_ext. intros k.
  destruct (Nat.lt_ge_cases k (length (of_type t vs))) as [Hk|Hk].
  - rewrite nth_error_chunks by auto.
    destruct (nth_error (of_type t vs) k) as [v|] eqn:Ev; [|apply nth_error_None in Ev; lia].
    rewrite (map_nth_error _ _ _ Ev). f_equal.
    unfold block. rewrite (lay_run C vs local ND t ti k v Hti Ev). rewrite lay_local by auto.
    assert (Hty : v_ty v = t) by (apply nth_error_In in Ev; apply of_type_ty in Ev; tauto).
    unfold vdim. rewrite Hty. rewrite slice_slice by nia. f_equal; lia.
  - transitivity (@None (list T)); [|symmetry]; apply nth_error_None.
    rewrite chunks_length; auto. rewrite map_length; auto.
Qed.

Lemma stacked_ok vs a t : classes_ok C -> wf_assign C vs false a -> In t (map v_ty vs) ->
  exists rows, get_stacked_value C a t = Ok rows /\ length rows = length (of_type t vs) /\
    forall k v, nth_error (of_type t vs) k = Some v -> exists x, nth_error rows k = Some x /\ get_value C a v = Ok x.
Proof.
  intros CO Hwf Ht. pose proof Hwf as (ND & HL & Hs). unfold get_stacked_value, dict_getE.
  rewrite HL. pose proof Ht as Ht2. apply (lay_tindex_mem C vs false ND) in Ht2. destruct Ht2 as (ti & Hti).
  rewrite Hti, lay_tcount by auto. rewrite (proj2 (mem_in _ _) Ht). cbn [bind].
  change (param_dim (C t)) with (tdim C false t). rewrite run_rows; auto; [|congruence]. cbn [bind].
  rewrite traverse_map.
  assert (H : forall l, (forall v, In v l -> In v (of_type t vs)) ->
    exists rows, traverse (fun v => unflatten (C t) (block C (make_layout C vs false) (as_storage a) v)) l = Ok rows /\
      length rows = length l /\ forall k v, nth_error l k = Some v -> exists x, nth_error rows k = Some x /\ get_value C a v = Ok x).
  { induction l as [|w l IH]; intros Hl; simpl.
    - exists []; repeat split; auto. intros [|k]; discriminate.
    - assert (Hw : In w (of_type t vs)) by (apply Hl; left; auto).
      apply of_type_ty in Hw. destruct Hw as [Hw Hty].
      destruct (get_value_ok C CO vs a w Hwf Hw) as (x & Ex & _). pose proof Ex as Ex2.
      rewrite (get_value_block C vs) in Ex by auto. rewrite Hty, HL in Ex. rewrite Ex. cbn [bind].
      destruct IH as (rows & Er & Hlen & Hn); [intros; apply Hl; right; auto|]. rewrite Er. cbn [bind].
      exists (x :: rows). repeat split; simpl; auto.
      intros [|k] v; simpl; intros Hv; [injection Hv as ->; eauto | eauto]. }
  apply H. auto.
Qed.

(* ---- retraction ---- *)
Section Retract.
Variables (vs vs' : list var) (a delta : assign T) (row : var -> list T) (sg : var -> var).
Hypothesis Hwf : wf_assign C vs false a.
Hypothesis Hwf' : wf_assign C vs' true delta.
Hypothesis Hsame : forall t, of_type t vs' = map sg (of_type t vs).
Hypothesis Hrow : forall v, In v vs ->
  retract_row (C (v_ty v)) (block C (as_layout a) (as_storage a) v, block C (as_layout delta) (as_storage delta) (sg v)) = Ok (row v)
  /\ length (row v) = vpdim C v.

Lemma type_present l t : In t (map v_ty l) <-> of_type t l <> [].
Proof.
  split.
  - intros H E. apply in_map_iff in H. destruct H as (v & <- & Hv).
    assert (Hin : In v (of_type (v_ty v) l)) by (apply of_type_ty; auto). rewrite E in Hin; destruct Hin.
  - intros H. destruct (of_type t l) as [|v r] eqn:E; [congruence|].
    assert (Hin : In v (of_type t l)) by (rewrite E; left; auto). apply of_type_ty in Hin. destruct Hin as [H1 <-].
    apply in_map; auto.
Qed.
Lemma same_types : forall t, In t (map v_ty vs') <-> In t (map v_ty vs).
Proof.
  intros t. rewrite !type_present, Hsame. destruct (of_type t vs); simpl; [tauto|]. split; intros _; discriminate.
Qed.

Lemma retract_type_ok t ti new : dict_get (l_tindex (as_layout a)) t = Some ti -> length new = l_dim (as_layout a) ->
  exists new', retract_type C a delta new t = Ok new' /\ length new' = length new /\
    slice new' ti (ti + tdim C false t * length (of_type t vs)) = concat (map row (of_type t vs)) /\
    (forall k, k < ti \/ ti + tdim C false t * length (of_type t vs) <= k -> nth_error new' k = nth_error new k).
Proof.
  intros Hti Hlen. pose proof Hwf as (ND & HL & Hs). pose proof Hwf' as (ND' & HL' & Hs').
  unfold retract_type, dict_getE. rewrite Hti. rewrite HL in Hti |- *. rewrite HL'.
  assert (Ht : In t (map v_ty vs)) by (apply (lay_tindex_mem C vs false ND); eauto).
  assert (Ht' : In t (map v_ty vs')) by (apply same_types; auto).
  rewrite lay_tcount by auto. rewrite (proj2 (mem_in _ _) Ht). cbn [bind].
  apply (lay_tindex_mem C vs' true ND') in Ht'. destruct Ht' as (li & Hli). rewrite Hli. cbn [bind].
  change (param_dim (C t)) with (tdim C false t). change (local_dim (C t)) with (tdim C true t).
  rewrite run_rows by (auto; congruence). cbn [bind].
  pose proof (run_rows vs' true (as_storage delta) t li ND') as Hr. rewrite Hsame, map_length, map_map in Hr.
  rewrite Hr by (auto; congruence). cbn [bind].
  assert (Htr : traverse (retract_row (C t))
     (combine (map (block C (make_layout C vs false) (as_storage a)) (of_type t vs))
              (map (fun v => block C (make_layout C vs' true) (as_storage delta) (sg v)) (of_type t vs))) =
     Ok (map row (of_type t vs))).
  { assert (H : forall l, (forall v, In v l -> In v (of_type t vs)) ->
      traverse (retract_row (C t))
       (combine (map (block C (make_layout C vs false) (as_storage a)) l)
                (map (fun v => block C (make_layout C vs' true) (as_storage delta) (sg v)) l)) = Ok (map row l)).
    { induction l as [|v l IH]; intros Hl; simpl; auto.
      assert (Hv : In v (of_type t vs)) by (apply Hl; left; auto). apply of_type_ty in Hv. destruct Hv as [Hv Hty].
      destruct (Hrow v Hv) as [Hr1 _]. rewrite Hty, HL, HL' in Hr1. rewrite Hr1. cbn [bind].
      rewrite IH by (intros; apply Hl; right; auto). auto. }
    apply H; auto. }
  rewrite Htr. cbn [bind].
  apply at_set_ok; [lia | |].
  - rewrite Hlen, HL. pose proof (lay_run_bound C vs false ND t ti Hti). lia.
  - rewrite (concat_length_uniform (tdim C false t)).
    + rewrite map_length. lia.
    + rewrite Forall_map, Forall_forall. intros v Hv. apply of_type_ty in Hv. destruct Hv as [Hv Hty].
      destruct (Hrow v Hv) as [_ Hl]. rewrite Hl. unfold vpdim, tdim. rewrite Hty. auto.
Qed.

Lemma retract_ok : exists a', manifold_retract C a delta = Ok a' /\ as_layout a' = as_layout a /\
  length (as_storage a') = length (as_storage a) /\
  forall v, In v vs -> block C (as_layout a) (as_storage a') v = row v.
Proof.
  pose proof Hwf as (ND & HL & Hs). pose proof Hwf' as (ND' & HL' & Hs').
  unfold manifold_retract. 
  assert (Hloc1 : l_local (as_layout a) = false) by (rewrite HL; apply lay_local; auto).
  assert (Hloc2 : l_local (as_layout delta) = true) by (rewrite HL'; apply lay_local; auto).
  rewrite Hloc1, Hloc2. cbn [negb assert_ bind].
  assert (H : forall ts new, NoDup ts -> (forall t, In t ts -> In t (map v_ty vs)) -> length new = l_dim (as_layout a) ->
    exists new', foldM (retract_type C a delta) ts new = Ok new' /\ length new' = length new /\
      (forall v, In v vs -> In (v_ty v) ts -> block C (as_layout a) new' v = row v) /\
      (forall v, In v vs -> ~ In (v_ty v) ts -> block C (as_layout a) new' v = block C (as_layout a) new v)).
  { induction ts as [|t ts IH]; intros new Nts Hts Hlen.
    - exists new; simpl; repeat split; auto; tauto.
    - inversion Nts; subst.
      assert (Ht : In t (map v_ty vs)) by (apply Hts; left; auto).
      apply (lay_tindex_mem C vs false ND) in Ht. destruct Ht as (ti & Hti). rewrite <- HL in Hti.
      destruct (retract_type_ok t ti new Hti Hlen) as (new1 & E1 & Hl1 & Hs1 & Ho1).
      destruct (IH new1) as (new2 & E2 & Hl2 & Hin2 & Hout2); auto;
        [intros; apply Hts; right; auto | congruence |].
      exists new2. simpl. rewrite E1. cbn [bind]. split; auto. split; [congruence|].
      rewrite HL in Hti.
      assert (Hrun : forall v, In v vs -> v_ty v = t -> block C (as_layout a) new1 v = row v).
      { intros v Hv Hty. destruct (of_type_nth vs v Hv) as (k & Hk). rewrite Hty in Hk.
        pose proof (lay_run C vs false ND t ti k v Hti Hk) as Hi.
        unfold block. rewrite HL, Hi, lay_local by auto. unfold vdim. rewrite Hty.
        assert (Hkl : k < length (of_type t vs)) by (apply nth_error_Some; congruence).
        assert (Hu : Forall (fun r => length r = tdim C false t) (map row (of_type t vs))).
        { rewrite Forall_map, Forall_forall. intros w Hw. apply of_type_ty in Hw. destruct Hw as [Hw Hwt].
          destruct (Hrow w Hw) as [_ Hlw]. rewrite Hlw. unfold vpdim, tdim. rewrite Hwt. auto. }
        pose proof (slice_concat_block (tdim C false t) (map row (of_type t vs)) k Hu) as Hb.
        rewrite map_length in Hb. specialize (Hb Hkl). rewrite (map_nth_error _ _ _ Hk) in Hb.
        injection Hb as Hb. rewrite Hb, <- Hs1. assert (Hk2 : S k * tdim C false t <= length (of_type t vs) * tdim C false t) by (apply Nat.mul_le_mono_r; auto). clear -Hk2. change (param_dim (C t)) with (tdim C false t). rewrite slice_slice by lia. f_equal; lia. }
      assert (Hoth : forall v, In v vs -> v_ty v <> t -> block C (as_layout a) new1 v = block C (as_layout a) new v).
      { intros v Hv Hty. destruct (lay_tindex_split C vs false ND t ti Hti) as (l1 & l2 & Ho & Hti').
        pose proof Hv as Hv2. apply (lay_index_mem C vs false ND) in Hv2. destruct Hv2 as (i & Hi).
        unfold block. rewrite HL, Hi, lay_local by auto. apply slice_ext. intros k Hk. apply Ho1.
        apply (lay_index_in C vs false ND) in Hi. rewrite Ho, !place_app in Hi.
        assert (Hrt : total (vdim C false) (of_type t vs) = length (of_type t vs) * tdim C false t).
        { apply total_of_type. intros w Hw. apply of_type_ty in Hw; tauto. }
        apply in_app_or in Hi. destruct Hi as [Hi|Hi]; [apply place_bound in Hi; lia|].
        apply in_app_or in Hi. destruct Hi as [Hi|Hi]; [|apply place_bound in Hi; lia].
        exfalso. apply (in_map fst) in Hi. rewrite place_fst in Hi. apply of_type_ty in Hi. simpl in Hi. tauto. }
      split.
      + intros v Hv [E|Hin]; [|auto].
        destruct (in_dec Nat.eq_dec (v_ty v) ts) as [Hin|Hin]; [exfalso; subst t; auto|].
        rewrite Hout2 by auto. apply Hrun; auto.
      + intros v Hv Hn. rewrite Hout2 by (try exact Hv; intros Hin; apply Hn; right; exact Hin).
        apply Hoth; [exact Hv|]. intros E; apply Hn; left; symmetry; exact E. }
  assert (Hty : get_variable_types (as_layout a) = firsts (map v_ty vs)) by (rewrite HL; apply lay_types; auto).
  rewrite Hty.
  destruct (H (firsts (map v_ty vs)) (repeat n0 (length (as_storage a)))) as (new & E & Hl & Hin & _).
  - apply firsts_nodup.
  - intros t Ht. apply (proj1 (firsts_in _ _)) in Ht. auto.
  - rewrite repeat_length; auto.
  - rewrite E. cbn [bind]. eexists; split; [reflexivity|]. simpl.
    split; auto. split; [rewrite Hl, repeat_length; auto|].
    intros v Hv. apply Hin; auto. apply firsts_in. apply in_map; auto.
Qed.
End Retract.
End A2.
