(* Duplicate variables, local assignments *)
From Coq Require Import List Arith Bool Lia Permutation.
From Verif Require Import Num Py Arr PBase MLayout SpecLayout SpecTree PLayout PTree MAssign SpecAssign PAssign PAssign2.
Import ListNotations.

(* ---- lists with repetitions ---- *)
Section Dup.
Context {K : Type} `{Eqb K}.

Lemma add_key_fold (l ks : list K) : NoDup ks ->
  NoDup (fold_left add_key l ks) /\ forall x, In x (fold_left add_key l ks) <-> In x ks \/ In x l.
Proof.
  revert ks; induction l as [|y l IH]; intros ks ND; simpl; [split; auto; tauto|].
  assert (ND' : NoDup (add_key ks y)).
  { unfold add_key. destruct (mem y ks) eqn:E; auto. apply mem_not_in in E.
    apply (Permutation_NoDup (l := y :: ks)); [|constructor; auto].
    apply Permutation_cons_append. }
  destruct (IH _ ND') as [H1 H2]. split; auto. intros x. rewrite H2.
  unfold add_key. destruct (mem y ks) eqn:E.
  - apply mem_in in E. split; [tauto|]. intros [Hx|[->|Hx]]; auto.
  - rewrite in_app_iff. simpl. tauto.
Qed.

Lemma incl_perm_rest (ks vs : list K) : NoDup ks -> (forall x, In x ks -> In x vs) ->
  exists rest, Permutation vs (ks ++ rest).
Proof.
  revert vs; induction ks as [|k ks IH]; intros vs ND Hin; [exists vs; auto|].
  inversion ND; subst. destruct (in_split k vs) as (l1 & l2 & ->); [apply Hin; left; auto|].
  destruct (IH (l1 ++ l2)) as (rest & Hp); auto.
  - intros x Hx. assert (Hx2 : In x (l1 ++ k :: l2)) by (apply Hin; right; auto).
    apply in_app_or in Hx2. apply in_or_app. destruct Hx2 as [|[->|]]; auto. tauto.
  - exists rest. simpl. rewrite <- Hp. symmetry. apply Permutation_middle.
Qed.

Lemma perm_count (l1 l2 : list K) x : Permutation l1 l2 -> count_occ eqb_dec l1 x = count_occ eqb_dec l2 x.
Proof. intros Hp. apply (Permutation_count_occ eqb_dec); auto. Qed.

Lemma total_repeats (dim : K -> nat) (ks vs : list K) : NoDup ks -> (forall x, In x ks <-> In x vs) ->
  total dim ks <= total dim vs /\
  (total dim ks < total dim vs <-> exists v, 2 <= count_occ eqb_dec vs v /\ 0 < dim v).
Proof.
  intros ND Hin. destruct (incl_perm_rest ks vs ND) as (rest & Hp); [intros; apply Hin; auto|].
  rewrite (total_perm dim _ _ Hp), total_app. split; [lia|].
  assert (Hr : forall l, 0 < total dim l <-> exists v, In v l /\ 0 < dim v).
  { induction l as [|y l IHl]; simpl.
    - split; [lia | intros (v & [] & _)].
    - split.
      + intros Hlt. destruct (dim y) eqn:E; [|exists y; split; [auto | lia]].
        destruct IHl as [IHl _]. destruct IHl as (v & Hv & Hd); [lia|]. exists v; auto.
      + intros (v & [->|Hv] & Hd); [lia|]. assert (0 < total dim l) by (apply IHl; eauto). lia. }
  split.
  - intros Hlt. destruct (proj1 (Hr rest)) as (v & Hv & Hd); [lia|]. exists v. split; auto.
    rewrite (perm_count _ _ v Hp), count_occ_app.
    assert (Hk : In v ks) by (apply Hin; apply (Permutation_in _ (Permutation_sym Hp)); apply in_or_app; auto).
    apply (count_occ_In eqb_dec) in Hk. apply (count_occ_In eqb_dec) in Hv. lia.
  - intros (v & Hc & Hd). assert (0 < total dim rest); [|lia]. apply Hr. exists v. split; auto.
    rewrite (perm_count _ _ v Hp), count_occ_app in Hc.
    apply (count_occ_In eqb_dec). pose proof (proj1 (NoDup_count_occ eqb_dec ks) ND v). lia.
Qed.
End Dup.

Section A3.
Context {T : Type} {N : Num T}.
Variable C : cenv (T := T).

Lemma place_var_dim local vs idx i :
  snd (fold_left (place_var C local) vs (idx, i)) = i + total (vdim C local) vs.
Proof.
  revert idx i; induction vs as [|v r IH]; intros idx i; simpl; [lia|]. rewrite IH. lia.
Qed.
Lemma place_type_dim local gs idx tix i idx' tix' i' :
  fold_left (place_type C local) gs (idx, tix, i) = (idx', tix', i') ->
  i' = i + total (vdim C local) (concat (map snd gs)).
Proof.
  revert idx tix i; induction gs as [|[t vs] r IH]; intros idx tix i; simpl; [intros [= -> -> ->]; lia|].
  pose proof (place_var_dim local vs idx i) as Hd.
  destruct (fold_left (place_var C local) vs (idx, i)) as [idx1 i1]. simpl in Hd.
  intros H. apply IH in H. rewrite total_app. lia.
Qed.

Lemma nested_fold {A} (gs : list (A * list var)) ks :
  fold_left (fun ks g => fold_left add_key (snd g) ks) gs ks = fold_left add_key (concat (map snd gs)) ks.
Proof. revert ks; induction gs as [|g r IH]; intros ks; simpl; auto. rewrite fold_left_app. auto. Qed.

(* layouts of lists with repetitions *)
Lemma layout_any vs local :
  let L := make_layout C vs local in
  l_local L = local /\ l_dim L = total (vdim C local) vs /\
  NoDup (get_variables L) /\ (forall v, In v (get_variables L) <-> In v vs) /\
  get_variable_types L = firsts (map v_ty vs) /\
  l_tcount L = map (fun t => (t, length (of_type t vs))) (firsts (map v_ty vs)) /\ layout_nodup L.
Proof.
  intros L. unfold L, make_layout. rewrite bucket_groups.
  destruct (fold_left (place_type C local) (groups vs) ([], [], 0)) as [[idx tix] i] eqn:E.
  pose proof (place_type_dim _ _ _ _ _ _ _ _ E) as Hd. simpl in Hd.
  apply place_type_keys in E. destruct E as [E1 E2]. simpl in E1, E2.
  rewrite nested_fold, concat_groups in E1. rewrite concat_groups in Hd.
  destruct (add_key_fold (order vs) [] (NoDup_nil _)) as [H1 H2]. rewrite <- E1 in H1, H2.
  assert (Ht : map fst tix = firsts (map v_ty vs)).
  { rewrite E2. clear. rewrite <- groups_fst.
    assert (ND : NoDup (map fst (groups vs))) by (rewrite groups_fst; apply firsts_nodup).
    assert (H : forall (gs : list (vty * list var)) ks, NoDup (ks ++ map fst gs) ->
      fold_left (fun ks g => add_key ks (fst g)) gs ks = ks ++ map fst gs).
    { induction gs as [|g r IH]; intros ks HN; simpl; [rewrite app_nil_r; auto|].
      unfold add_key at 2. rewrite (proj2 (mem_not_in _ _)).
      - rewrite IH; simpl in *; rewrite <- app_assoc; auto.
      - simpl in HN. apply NoDup_remove_2 in HN. intros Hin; apply HN; apply in_or_app; auto. }
    apply (H (groups vs) []). auto. }
  assert (Htc : map (fun kv : vty * list var => (fst kv, length (snd kv))) (groups vs) =
                map (fun t => (t, length (of_type t vs))) (firsts (map v_ty vs))).
  { unfold groups. rewrite map_map. auto. }
  unfold get_variables, get_variable_types, dict_keys, layout_nodup; simpl.
  split; auto. split; [rewrite Hd; apply total_perm, order_perm|]. split; auto.
  split; [intros v; rewrite H2, order_in; simpl; tauto|]. split; auto. split; auto.
  split; auto. split; [rewrite Ht; apply firsts_nodup|].
  rewrite Htc, map_map. simpl. rewrite map_id. apply firsts_nodup.
Qed.

Local Notation repeated := (SpecAssign.repeated C).

Lemma partial_repeated vs (d : dict var (pytree T)) : classes_ok C -> vs <> [] ->
  (forall v x, In v vs -> dict_get d v = Some x -> value_ok (C (v_ty v)) x) ->
  (make_from_partial_dict C vs d = Err AssertionError <-> repeated vs) /\
  (~ repeated vs -> exists a, make_from_partial_dict C vs d = Ok a).
Proof.
  intros CO Hne Hd. unfold make_from_partial_dict.
  destruct (layout_any vs false) as (_ & HD & HN & HI & _).
  destruct (total_repeats (vdim C false) _ _ HN HI) as [Hle Hlt].
  rewrite concatenate_ok.
  2:{ intros E. apply map_eq_nil in E. destruct vs as [|v r]; auto.
      assert (Hin : In v (get_variables (make_layout C (v :: r) false))) by (apply HI; left; auto).
      rewrite E in Hin; destruct Hin. }
  cbn [bind].
  rewrite (concat_total (vdim C false)).
  2:{ intros v Hv. apply HI in Hv. destruct (dict_get d v) as [x|] eqn:E.
      - apply (flatten_length (C (v_ty v))); auto; eapply Hd; eauto.
      - apply (flatten_length (C (v_ty v))); apply default_ok; auto. }
  rewrite HD.
  destruct (Nat.eqb (total (vdim C false) (get_variables (make_layout C vs false))) (total (vdim C false) vs)) eqn:E;
    cbn [assert_ bind].
  - apply Nat.eqb_eq in E. split; [|intros; eauto]. split; [discriminate|]. intros Hr. apply Hlt in Hr. lia.
  - apply Nat.eqb_neq in E.
    assert (Hr : repeated vs) by (apply Hlt; lia). split; [tauto | intros; tauto].
Qed.

Lemma defaults_any vs : classes_ok C -> vs <> [] ->
  exists a, make_from_defaults C vs = Ok a /\ as_layout a = make_layout C vs false /\
    length (as_storage a) = total (vpdim C) vs.
Proof.
  intros CO Hne. unfold make_from_defaults.
  destruct (layout_any vs false) as (_ & HD & HN & HI & HT & HC & _).
  rewrite (traverse_all _ (fun t => concat (repeat (flatten (vc_default (C t))) (length (of_type t vs))))).
  2:{ intros t Ht. rewrite HT in Ht. unfold dict_getE. rewrite HC.
      rewrite (get_map_keys (fun t => length (of_type t vs))). rewrite (proj2 (mem_in _ _)); auto. }
  cbn [bind]. rewrite HT, concatenate_ok.
  2:{ intros E. apply map_eq_nil in E. destruct vs as [|v r]; auto.
      assert (Hin : In (v_ty v) (firsts (map v_ty (v :: r)))) by (apply firsts_in; left; auto).
      rewrite E in Hin; destruct Hin. }
  cbn [bind]. rewrite (defaults_storage C).
  assert (Hlen : length (concat (map (fun v => flatten (lookup_or_default C [] v)) (order vs))) = total (vpdim C) vs).
  { rewrite (concat_total (vpdim C)).
    - apply total_perm, order_perm.
    - intros v Hv. unfold lookup_or_default; simpl.
      apply (flatten_length (C (v_ty v))); apply default_ok; auto. }
  rewrite Hlen, HD. change (total (vdim C false) vs) with (total (vpdim C) vs). rewrite Nat.eqb_refl. cbn [assert_ bind].
  eexists; split; [reflexivity|]. simpl. auto.
Qed.

Lemma defaults_repeated vs : classes_ok C -> repeated vs ->
  exists a, make_from_defaults C vs = Ok a /\
    total (vpdim C) (get_variables (as_layout a)) < length (as_storage a) /\
    forall vs', NoDup vs' -> update_storage_layout C a (make_layout C vs' false) = Err AssertionError.
Proof.
  intros CO Hr. assert (Hne : vs <> []) by (destruct Hr as (v & Hc & _); intros ->; simpl in Hc; lia).
  destruct (defaults_any vs CO Hne) as (a & E & HL & Hlen). exists a. split; auto.
  destruct (layout_any vs false) as (_ & HD & HN & HI & _ & _ & HND).
  destruct (total_repeats (vdim C false) _ _ HN HI) as [_ Hlt].
  assert (Hlt2 : total (vpdim C) (get_variables (as_layout a)) < length (as_storage a)).
  { rewrite HL, Hlen. apply Hlt; auto. }
  split; auto. intros vs' N'. apply update_err. rewrite HL.
  destruct (set_eqb (get_variables (make_layout C vs false)) (get_variables (make_layout C vs' false))) eqn:Es.
  - left. rewrite set_eqb_ok in Es. rewrite HD, lay_dim by auto.
    assert (Hp : Permutation vs' (get_variables (make_layout C vs false))).
    { apply NoDup_Permutation; auto. intros v. rewrite Es, lay_vars, order_in by auto. tauto. }
    rewrite (total_perm _ _ _ Hp). rewrite HL, Hlen in Hlt2.
    change (vdim C false) with (vpdim C). lia.
  - right; right. split; auto. split; [apply make_layout_nodup; auto|]. intros Hc.
    apply set_eqb_ok in Hc. congruence.
Qed.

(* ---- retraction in terms of values ---- *)
Lemma retract_values vs vs' a delta (sg : var -> var) (y : var -> pytree T) : classes_ok C ->
  wf_assign C vs false a -> wf_assign C vs' true delta ->
  (forall t, of_type t vs' = map sg (of_type t vs)) ->
  (forall v, In v vs -> exists x, get_value C a v = Ok x /\
     retract (C (v_ty v)) x (block C (as_layout delta) (as_storage delta) (sg v)) = Ok (y v) /\
     value_ok (C (v_ty v)) (y v)) ->
  exists a', manifold_retract C a delta = Ok a' /\ as_layout a' = as_layout a /\ wf_assign C vs false a' /\
    forall v, In v vs -> get_value C a' v = Ok (y v).
Proof.
  intros CO Hwf Hwf' Hsame Hy.
  destruct (retract_ok C vs vs' a delta (fun v => flatten (y v)) sg Hwf Hwf' Hsame) as (a' & E & HL & Hlen & Hb).
  - intros v Hv. destruct (Hy v Hv) as (x & Ex & Er & Hok). split.
    + unfold retract_row; simpl. rewrite (get_value_block C vs) in Ex by auto. rewrite Ex. cbn [bind].
      rewrite Er. reflexivity.
    + apply flatten_length; auto.
  - exists a'. split; auto. split; auto. pose proof Hwf as (ND & HLa & Hs).
    assert (Hwfa : wf_assign C vs false a') by (repeat split; auto; congruence).
    split; auto. intros v Hv. rewrite (get_value_block C vs) by auto. rewrite HL, Hb by auto.
    destruct (Hy v Hv) as (x & _ & _ & Hok). apply unflatten_flatten; auto.
Qed.

(* ---- get_value on a local assignment ---- *)
Lemma local_reads vs a v i : classes_ok C -> wf_assign C vs true a -> dict_get (l_index (as_layout a)) v = Some i ->
  (vldim C v = vpdim C v ->
     exists x, get_value C a v = Ok x /\ flatten x = slice (as_storage a) i (i + vldim C v)) /\
  (vpdim C v < vldim C v ->
     exists x, get_value C a v = Ok x /\ flatten x = slice (as_storage a) i (i + vpdim C v)) /\
  (vldim C v < vpdim C v -> length (as_storage a) < i + vpdim C v -> get_value C a v = Err ValueError) /\
  (vldim C v < vpdim C v -> i + vpdim C v <= length (as_storage a) ->
     exists x foreign, get_value C a v = Ok x /\
       flatten x = slice (as_storage a) i (i + vldim C v) ++ foreign /\
       length foreign = vpdim C v - vldim C v /\
       forall k y, nth_error foreign k = Some y ->
         exists w j m, w <> v /\ dict_get (l_index (as_layout a)) w = Some j /\ m < vldim C w /\
           nth_error (as_storage a) (j + m) = Some y).
Proof.
  intros CO (ND & HL & Hs) Hi. pose proof Hi as Hi2. rewrite HL in Hi2.
  pose proof (lay_bound C vs true ND v i Hi2) as HB. change (vdim C true v) with (vldim C v) in HB.
  assert (Hget : i + vpdim C v <= length (as_storage a) ->
     exists x, get_value C a v = Ok x /\ flatten x = slice (as_storage a) i (i + vpdim C v)).
  { intros Hb. unfold get_value, dict_getE. rewrite Hi. cbn [bind].
    destruct (unflatten_ok (C (v_ty v)) (CO _) (slice (as_storage a) i (i + vpdim C v))) as (x & E & _ & F).
    - rewrite slice_length by lia. unfold vpdim. lia.
    - eauto. }
  rewrite Hs, HL in *. repeat split.
  - intros E. rewrite E. apply Hget. lia.
  - intros E. apply Hget. lia.
  - intros E Hlt. unfold get_value, dict_getE. rewrite HL, Hi. cbn [bind]. apply unflatten_err.
    unfold slice. rewrite firstn_length, skipn_length. unfold vpdim in *. lia.
  - intros E Hle. destruct (Hget Hle) as (x & Ex & Fx).
    exists x, (slice (as_storage a) (i + vldim C v) (i + vpdim C v)).
    split; auto. split.
    { rewrite Fx. unfold slice.
      replace (i + vpdim C v - i) with (vldim C v + (vpdim C v - vldim C v)) by lia.
      replace (i + vldim C v - i) with (vldim C v) by lia.
      replace (i + vpdim C v - (i + vldim C v)) with (vpdim C v - vldim C v) by lia.
      rewrite <- skipn_skipn'. generalize (skipn i (as_storage a)) as l. intros l.
      generalize (vpdim C v - vldim C v) as q. generalize (vldim C v) as p. clear. intros p; revert l.
      induction p as [|p IH]; intros [|y l] q; simpl; auto; [rewrite firstn_nil; auto | f_equal; auto]. }
    split; [rewrite slice_length by lia; lia|].
    intros k y Hk.
    assert (Hkl : k < vpdim C v - vldim C v).
    { assert (Hne : nth_error (slice (as_storage a) (i + vldim C v) (i + vpdim C v)) k <> None) by congruence.
      apply nth_error_Some in Hne. rewrite slice_length in Hne by lia. lia. }
    rewrite nth_error_slice in Hk by lia.
    destruct (lay_cover C vs true ND (i + vldim C v + k)) as (w & j & Hj & Hr); [lia|].
    exists w, j, (i + vldim C v + k - j). change (vdim C true w) with (vldim C w) in Hr.
    split; [|split; [auto|split; [lia|]]].
    + intros ->. assert (j = i) by congruence. lia.
    + replace (j + (i + vldim C v + k - j)) with (i + vldim C v + k) by lia. auto.
Qed.
End A3.
