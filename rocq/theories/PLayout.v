(* Facts about StorageLayout.make *)
From Coq Require Import List Arith Bool Lia Permutation Sorting.Sorted.
From Verif Require Import Num Py Arr PBase MLayout SpecLayout.
Import ListNotations.

Lemma eq_perm {A} (l1 l2 : list A) : l1 = l2 -> Permutation l1 l2.
Proof. intros ->; auto. Qed.

(* ---- firsts and bucketing ---- *)
Section Bucket.
Context {K A : Type} `{HK : Eqb K}.
Variable key : A -> K.

Lemma firsts_in (l : list K) k : In k (firsts l) <-> In k l.
Proof.
  induction l as [|x r IH]; simpl; [tauto|].
  rewrite filter_In, IH. destruct (eqb k x) eqn:E; simpl.
  - apply eqb_ok in E; subst. intuition congruence.
  - apply eqb_neq in E. intuition congruence.
Qed.

Lemma firsts_nodup (l : list K) : NoDup (firsts l).
Proof.
  induction l as [|x r IH]; simpl; constructor.
  - rewrite filter_In. intros [_ H]. rewrite eqb_refl in H; discriminate.
  - apply NoDup_filter; auto.
Qed.

Lemma firsts_snoc (l : list K) k :
  firsts (l ++ [k]) = if mem k l then firsts l else firsts l ++ [k].
Proof.
  induction l as [|x r IH]; simpl; auto.
  rewrite IH. change (mem k (x :: r)) with (eqb k x || mem k r).
  destruct (mem k r) eqn:E.
  - rewrite orb_true_r; auto.
  - rewrite orb_false_r, filter_app; simpl. destruct (eqb k x); simpl; auto. rewrite app_nil_r; auto.
Qed.

Definition bucket_by (l : list A) : dict K (list A) :=
  fold_left (fun d x => dict_append d (key x) x) l [].

Lemma get_map_keys {V} (F : K -> V) ks k :
  dict_get (map (fun t => (t, F t)) ks) k = if mem k ks then Some (F k) else None.
Proof.
  induction ks as [|t r IH]; simpl; auto.
  change (mem k (t :: r)) with (eqb k t || mem k r).
  destruct (eqb k t) eqn:E; simpl; auto. apply eqb_ok in E; subst; auto.
Qed.

Lemma set_map_keys {V} (F : K -> V) ks k v : NoDup ks ->
  dict_set (map (fun t => (t, F t)) ks) k v =
  if mem k ks then map (fun t => (t, if eqb k t then v else F t)) ks
  else map (fun t => (t, F t)) ks ++ [(k, v)].
Proof.
  induction 1 as [|t r Hn Hr IH]; simpl; auto.
  change (mem k (t :: r)) with (eqb k t || mem k r).
  destruct (eqb k t) eqn:E; simpl.
  - f_equal. apply eqb_ok in E; subst. apply map_ext_in. intros x Hx.
    destruct (eqb t x) eqn:E; auto. apply eqb_ok in E; subst; tauto.
  - rewrite IH. destruct (mem k r); auto.
Qed.

Lemma bucket_by_spec (l : list A) :
  bucket_by l = map (fun k => (k, filter (fun x => eqb (key x) k) l)) (firsts (map key l)).
Proof.
  unfold bucket_by. induction l as [|x l IH] using rev_ind; auto.
  rewrite fold_left_app; simpl. rewrite IH. unfold dict_append.
  rewrite get_map_keys, set_map_keys by apply firsts_nodup.
  rewrite map_app; simpl. rewrite firsts_snoc.
  assert (Em : mem (key x) (firsts (map key l)) = mem (key x) (map key l)).
  { destruct (mem (key x) (map key l)) eqn:E.
    - apply mem_in. apply firsts_in. apply mem_in; auto.
    - apply mem_not_in. rewrite firsts_in. apply mem_not_in; auto. }
  rewrite Em. destruct (mem (key x) (map key l)) eqn:E.
  - apply map_ext_in. intros k Hk. rewrite filter_app; simpl.
    destruct (eqb (key x) k) eqn:E2; [|rewrite app_nil_r; auto].
    apply eqb_ok in E2; subst; auto.
  - rewrite map_app; simpl. f_equal.
    + apply map_ext_in. intros k Hk. rewrite filter_app; simpl.
      destruct (eqb (key x) k) eqn:E2; [|rewrite app_nil_r; auto].
      apply eqb_ok in E2; subst. apply (proj1 (firsts_in _ _)) in Hk. apply mem_not_in in E; tauto.
    + f_equal. f_equal. rewrite filter_app; simpl. rewrite eqb_refl.
      assert (Hnil : filter (fun y => eqb (key y) (key x)) l = []).
      { apply mem_not_in in E. clear -E HK. induction l as [|y r IHl]; simpl; auto.
        simpl in E. destruct (eqb (key y) (key x)) eqn:E2; [apply eqb_ok in E2; tauto | auto]. }
      rewrite Hnil; auto.
Qed.

Lemma filter_split_perm (p : A -> bool) l : Permutation (filter p l ++ filter (fun x => negb (p x)) l) l.
Proof.
  induction l as [|x r IH]; simpl; auto.
  destruct (p x); simpl; auto.
  transitivity (x :: filter p r ++ filter (fun x => negb (p x)) r); auto.
  symmetry; apply Permutation_middle.
Qed.

(* grouping is a permutation *)
Lemma groups_perm ks (l : list A) :
  NoDup ks -> (forall x, In x l -> In (key x) ks) ->
  Permutation (flat_map (fun k => filter (fun x => eqb (key x) k) l) ks) l.
Proof.
  revert l; induction ks as [|k r IH]; intros l ND H; simpl.
  - destruct l as [|x l]; auto. exfalso; apply (H x); left; auto.
  - inversion ND; subst.
    transitivity (filter (fun x => eqb (key x) k) l ++ filter (fun x => negb (eqb (key x) k)) l);
      [|apply filter_split_perm].
    apply Permutation_app_head.
    rewrite <- (IH (filter (fun x => negb (eqb (key x) k)) l)); auto.
    + apply eq_perm. rewrite !flat_map_concat_map. f_equal. apply map_ext_in. intros k' Hk'.
      clear -H2 Hk' HK. induction l as [|x l IHl]; simpl; auto.
      destruct (eqb (key x) k) eqn:E; simpl.
      * apply eqb_ok in E. destruct (eqb (key x) k') eqn:E2; auto.
        apply eqb_ok in E2. congruence.
      * rewrite IHl. auto.
    + intros x Hx. apply filter_In in Hx. destruct Hx as [Hx Hn].
      destruct (H x Hx) as [E|]; auto. subst. rewrite eqb_refl in Hn; discriminate.
Qed.
End Bucket.

(* ---- totals ---- *)
Lemma total_app {A} (dim : A -> nat) l1 l2 : total dim (l1 ++ l2) = total dim l1 + total dim l2.
Proof. unfold total. induction l1; simpl; auto. lia. Qed.
Lemma total_perm {A} (dim : A -> nat) l1 l2 : Permutation l1 l2 -> total dim l1 = total dim l2.
Proof. unfold total. induction 1; simpl; lia. Qed.
Lemma total_const {A} (dim : A -> nat) d l : (forall x, In x l -> dim x = d) -> total dim l = length l * d.
Proof.
  unfold total. induction l as [|x r IH]; simpl; intros H; auto.
Qed.
Lemma total_ext {A} (f g : A -> nat) l : (forall x, In x l -> f x = g x) -> total f l = total g l.
Proof. unfold total. induction l; simpl; intros; auto. Qed.

(* ---- consecutive placement ---- *)
Section Place.
Context {A : Type}.
Variable dim : A -> nat.

Local Notation place := (SpecLayout.place dim).

Lemma place_fst i vs : map fst (place i vs) = vs.
Proof. revert i; induction vs; intros; simpl; f_equal; auto. Qed.
Lemma place_app i l1 l2 : place i (l1 ++ l2) = place i l1 ++ place (i + total dim l1) l2.
Proof.
  revert i; induction l1; intros; simpl; [f_equal; lia|].
  rewrite IHl1. do 3 f_equal. lia.
Qed.
Lemma place_bound i vs v j : In (v, j) (place i vs) -> i <= j /\ j + dim v <= i + total dim vs.
Proof.
  revert i; induction vs as [|w r IH]; intros i; simpl; [tauto|].
  intros [E|H]; [injection E as -> ->; lia|]. apply IH in H. lia.
Qed.
Lemma place_cover i vs k : i <= k < i + total dim vs ->
  exists v j, In (v, j) (place i vs) /\ j <= k < j + dim v.
Proof.
  revert i; induction vs as [|w r IH]; intros i; simpl; [lia|].
  intros H. destruct (Nat.lt_ge_cases k (i + dim w)).
  - exists w, i; split; [auto | lia].
  - destruct (IH (i + dim w)) as (v & j & Hin & Hk); [lia|]. exists v, j; auto.
Qed.
Lemma place_disjoint i vs v j w k : NoDup vs ->
  In (v, j) (place i vs) -> In (w, k) (place i vs) -> v <> w -> j + dim v <= k \/ k + dim w <= j.
Proof.
  revert i; induction vs as [|x r IH]; intros i ND; simpl; [tauto|]. inversion ND; subst.
  intros [E1|H3] [E2|H4] Hn.
  - congruence.
  - injection E1 as -> ->. apply place_bound in H4. lia.
  - injection E2 as -> ->. apply place_bound in H3. lia.
  - eapply IH; eauto.
Qed.
Lemma place_nth i vs k v : nth_error vs k = Some v ->
  nth_error (place i vs) k = Some (v, i + total dim (firstn k vs)).
Proof.
  revert i vs; induction k; intros i [|x r]; simpl; try discriminate.
  - intros [= ->]. do 2 f_equal. lia.
  - intros H. rewrite (IHk _ _ H). do 2 f_equal. lia.
Qed.
Lemma place_sorted i vs : StronglySorted le (map snd (place i vs)).
Proof.
  revert i; induction vs as [|x r IH]; intros i; simpl; constructor; auto.
  rewrite Forall_forall. intros j Hj. apply in_map_iff in Hj. destruct Hj as ([v j'] & <- & Hj).
  apply place_bound in Hj. simpl. lia.
Qed.
End Place.
Arguments place {A}.

(* ---- closed form of make_layout ---- *)
Section Layout.
Context {T : Type} {N : Num T}.
Variable C : cenv (T := T).

Definition groups (vs : list var) : list (vty * list var) :=
  map (fun t => (t, of_type t vs)) (firsts (map v_ty vs)).
Definition order (vs : list var) : list var := flat_map (fun t => of_type t vs) (firsts (map v_ty vs)).

Lemma bucket_groups vs : bucket vs = groups vs.
Proof. unfold bucket, groups, of_type. exact (bucket_by_spec v_ty vs). Qed.

Lemma order_perm vs : Permutation (order vs) vs.
Proof.
  unfold order, of_type. refine (groups_perm v_ty _ vs _ _).
  - apply firsts_nodup.
  - intros x Hx. apply firsts_in. apply in_map; auto.
Qed.
Lemma order_in vs v : In v (order vs) <-> In v vs.
Proof. split; apply Permutation_in; [|symmetry]; apply order_perm. Qed.
Lemma order_nodup vs : NoDup vs -> NoDup (order vs).
Proof. apply Permutation_NoDup. symmetry; apply order_perm. Qed.

Lemma place_var_fold local vs idx i : NoDup (map fst idx ++ vs) ->
  fold_left (place_var C local) vs (idx, i) = (idx ++ place (vdim C local) i vs, i + total (vdim C local) vs).
Proof.
  revert idx i; induction vs as [|v r IH]; intros idx i H; simpl.
  - rewrite app_nil_r, Nat.add_0_r; auto.
  - rewrite dict_set_fresh.
    + rewrite IH.
      * rewrite <- app_assoc. simpl. f_equal. lia.
      * rewrite map_app. simpl. rewrite <- app_assoc. auto.
    + apply NoDup_remove_2 in H. intros Hin; apply H. apply in_or_app; auto.
Qed.

Definition tplace (local : bool) (i : nat) (gs : list (vty * list var)) : dict vty nat :=
  map (fun gi => (fst (fst gi), snd gi)) (place (fun g => total (vdim C local) (snd g)) i gs).

Lemma place_type_fold local gs idx tix i :
  NoDup (map fst idx ++ concat (map snd gs)) -> NoDup (map fst tix ++ map fst gs) ->
  fold_left (place_type C local) gs (idx, tix, i) =
  (idx ++ place (vdim C local) i (concat (map snd gs)), tix ++ tplace local i gs,
   i + total (vdim C local) (concat (map snd gs))).
Proof.
  revert idx tix i; induction gs as [|[t vs] r IH]; intros idx tix i H1 H2; simpl.
  - rewrite !app_nil_r, Nat.add_0_r; auto.
  - simpl in H1, H2. rewrite app_assoc in H1.
    rewrite place_var_fold.
    2:{ clear -H1. revert H1. generalize (map fst idx ++ vs) as l. intros l H.
        induction l as [|x l IHl]; [constructor|]. simpl in H; inversion H; subst.
        constructor; [intros Hin; apply H2; apply in_or_app; auto | apply IHl; auto]. }
    rewrite (dict_set_fresh tix).
    2:{ apply NoDup_remove_2 in H2. intros Hin; apply H2; apply in_or_app; auto. }
    rewrite IH.
    + unfold tplace; simpl. rewrite total_app, place_app, <- !app_assoc. simpl. f_equal. lia.
    + rewrite map_app, place_fst. auto.
    + rewrite map_app, <- app_assoc. simpl. auto.
Qed.

Lemma concat_groups vs : concat (map snd (groups vs)) = order vs.
Proof. unfold groups, order. rewrite map_map, flat_map_concat_map. auto. Qed.
Lemma groups_fst vs : map fst (groups vs) = firsts (map v_ty vs).
Proof. unfold groups. rewrite map_map. simpl. apply map_id. Qed.

Definition closed_layout (vs : list var) (local : bool) : layout :=
  mkLayout local (total (vdim C local) (order vs)) (place (vdim C local) 0 (order vs))
           (tplace local 0 (groups vs)) (map (fun g => (fst g, length (snd g))) (groups vs)).

Lemma make_layout_closed vs local : NoDup vs -> make_layout C vs local = closed_layout vs local.
Proof.
  intros H. unfold make_layout. rewrite bucket_groups, place_type_fold.
  - rewrite concat_groups. reflexivity.
  - simpl. rewrite concat_groups. apply order_nodup; auto.
  - simpl. rewrite groups_fst. apply firsts_nodup.
Qed.

Section Facts.
Variables (vs : list var) (local : bool).
Hypothesis ND : NoDup vs.
Let L := make_layout C vs local.

Lemma lay_local : l_local L = local.
Proof. unfold L. rewrite make_layout_closed; auto. Qed.
Lemma lay_vars : get_variables L = order vs.
Proof. unfold L. rewrite make_layout_closed by auto. unfold get_variables, dict_keys; simpl. apply place_fst. Qed.
Lemma lay_vars_nodup : NoDup (get_variables L).
Proof. rewrite lay_vars. apply order_nodup; auto. Qed.
Lemma lay_dim : l_dim L = total (vdim C local) vs.
Proof. unfold L. rewrite make_layout_closed by auto. simpl. apply total_perm, order_perm. Qed.

Lemma lay_index_in v i : dict_get (l_index L) v = Some i <-> In (v, i) (place (vdim C local) 0 (order vs)).
Proof.
  unfold L. rewrite make_layout_closed by auto. simpl. apply dict_get_nodup.
  rewrite place_fst. apply order_nodup; auto.
Qed.
Lemma lay_index_mem v : In v vs <-> exists i, dict_get (l_index L) v = Some i.
Proof.
  rewrite <- dict_get_some. change (map fst (l_index L)) with (get_variables L).
  rewrite lay_vars, order_in. tauto.
Qed.
Lemma lay_bound v i : dict_get (l_index L) v = Some i -> i + vdim C local v <= l_dim L.
Proof.
  rewrite lay_index_in. intros H. apply place_bound in H. rewrite lay_dim.
  rewrite (total_perm _ _ _ (order_perm vs)) in H. lia.
Qed.
Lemma lay_disjoint v i w j : dict_get (l_index L) v = Some i -> dict_get (l_index L) w = Some j -> v <> w ->
  i + vdim C local v <= j \/ j + vdim C local w <= i.
Proof. rewrite !lay_index_in. intros. apply (place_disjoint (vdim C local) 0 (order vs)); auto. apply order_nodup; auto. Qed.
Lemma lay_cover k : k < l_dim L -> exists v i, dict_get (l_index L) v = Some i /\ i <= k < i + vdim C local v.
Proof.
  intros H. rewrite lay_dim in H. destruct (place_cover (vdim C local) 0 (order vs) k) as (v & i & Hin & Hk).
  - rewrite (total_perm _ _ _ (order_perm vs)). lia.
  - exists v, i. rewrite lay_index_in; auto.
Qed.

Lemma lay_types : get_variable_types L = firsts (map v_ty vs).
Proof.
  unfold L. rewrite make_layout_closed by auto. unfold get_variable_types, dict_keys, closed_layout, tplace; cbn [l_tindex].
  rewrite map_map; cbn [fst]. rewrite <- (map_map fst fst), place_fst. apply groups_fst.
Qed.
Lemma lay_tcount t : dict_get (l_tcount L) t = if mem t (map v_ty vs) then Some (length (of_type t vs)) else None.
Proof.
  unfold L. rewrite make_layout_closed by auto. simpl. unfold groups. rewrite map_map. simpl.
  rewrite (get_map_keys (fun t => length (of_type t vs))).
  destruct (mem t (map v_ty vs)) eqn:E.
  - apply mem_in in E. rewrite (proj2 (mem_in _ _)); auto. apply firsts_in; auto.
  - apply mem_not_in in E. rewrite (proj2 (mem_not_in _ _)); auto. rewrite firsts_in; auto.
Qed.
Lemma of_type_ty t v : In v (of_type t vs) <-> In v vs /\ v_ty v = t.
Proof. unfold of_type. rewrite filter_In, Nat.eqb_eq. tauto. Qed.
Lemma total_of_type t l : (forall v, In v l -> v_ty v = t) -> total (vdim C local) l = length l * tdim C local t.
Proof. intros H. apply total_const. intros v Hv. unfold vdim. rewrite H; auto. Qed.

Lemma lay_tindex_split t ti : dict_get (l_tindex L) t = Some ti ->
  exists l1 l2, order vs = l1 ++ of_type t vs ++ l2 /\ ti = total (vdim C local) l1.
Proof.
  unfold L. rewrite make_layout_closed by auto. simpl. intros H. apply dict_get_in in H.
  unfold tplace in H. apply in_map_iff in H. destruct H as ([[t' g] i] & E & H). simpl in E.
  injection E as -> ->.
  assert (Hin := H). apply (in_map fst) in Hin. rewrite place_fst in Hin. simpl in Hin.
  unfold groups in Hin. apply in_map_iff in Hin. destruct Hin as (t2 & E & Hin). injection E as -> <-.
  apply in_split in H. destruct H as (p1 & p2 & H).
  assert (Hg : groups vs = map fst p1 ++ (t, of_type t vs) :: map fst p2).
  { rewrite <- (place_fst (fun g => total (vdim C local) (snd g)) 0 (groups vs)), H, map_app. auto. }
  exists (concat (map snd (map fst p1))), (concat (map snd (map fst p2))). split.
  - rewrite <- concat_groups, Hg, map_app, concat_app. simpl. auto.
  - assert (Hn : nth_error (groups vs) (length p1) = Some (t, of_type t vs)).
    { rewrite Hg, nth_error_app2; rewrite map_length; auto. rewrite Nat.sub_diag; auto. }
    apply (place_nth (fun g => total (vdim C local) (snd g)) 0) in Hn.
    rewrite H, nth_error_app2, Nat.sub_diag in Hn by auto. simpl in Hn. injection Hn as ->.
    rewrite Hg, firstn_app, map_length, Nat.sub_diag, firstn_O, app_nil_r, firstn_all2 by (rewrite map_length; auto).
    generalize (map fst p1). intros gs. clear. induction gs as [|g r IH]; simpl; auto.
    rewrite total_app. rewrite IH. auto.
Qed.
Lemma lay_tindex_mem t : In t (map v_ty vs) <-> exists ti, dict_get (l_tindex L) t = Some ti.
Proof.
  rewrite <- dict_get_some. change (map fst (l_tindex L)) with (get_variable_types L).
  rewrite lay_types, firsts_in. tauto.
Qed.

(* the k-th variable of a type sits at type_index + k * dim *)
Lemma lay_run t ti k v : dict_get (l_tindex L) t = Some ti -> nth_error (of_type t vs) k = Some v ->
  dict_get (l_index L) v = Some (ti + k * tdim C local t).
Proof.
  intros Ht Hk. destruct (lay_tindex_split _ _ Ht) as (l1 & l2 & Ho & ->).
  rewrite lay_index_in, Ho.
  apply nth_error_In with (n := length l1 + k).
  assert (Hlt : k < length (of_type t vs)) by (apply nth_error_Some; congruence).
  rewrite (place_nth _ 0 _ (length l1 + k) v).
  - do 2 f_equal. rewrite firstn_app_2, total_app. simpl.
    rewrite firstn_app. replace (k - length (of_type t vs)) with 0 by lia. rewrite firstn_O, app_nil_r.
    f_equal. rewrite (total_of_type t).
    + rewrite firstn_length, Nat.min_l by lia. auto.
    + intros w Hw. apply (of_type_ty t w).
      rewrite <- (firstn_skipn k (of_type t vs)). apply in_or_app; auto.
  - rewrite nth_error_app2 by lia. replace (length l1 + k - length l1) with k by lia.
    rewrite nth_error_app1; auto.
Qed.
Lemma lay_run_bound t ti : dict_get (l_tindex L) t = Some ti ->
  ti + length (of_type t vs) * tdim C local t <= l_dim L.
Proof.
  intros Ht. destruct (lay_tindex_split _ _ Ht) as (l1 & l2 & Ho & ->).
  rewrite lay_dim, <- (total_perm _ _ _ (order_perm vs)), Ho, !total_app.
  rewrite (total_of_type t (of_type t vs)); [lia|]. intros w Hw. apply of_type_ty in Hw. tauto.
Qed.
Lemma lay_sorted : StronglySorted le (map snd (l_index L)).
Proof. unfold L. rewrite make_layout_closed by auto. apply place_sorted. Qed.
Lemma lay_tsorted : StronglySorted le (map snd (l_tindex L)).
Proof.
  unfold L. rewrite make_layout_closed by auto. simpl. unfold tplace. rewrite map_map. simpl.
  apply (place_sorted (fun g => total (vdim C local) (snd g))).
Qed.
End Facts.

(* every variable of the run appears there *)
Lemma of_type_nth vs v : In v vs -> exists k, nth_error (of_type (v_ty v) vs) k = Some v.
Proof. intros H. apply In_nth_error. apply of_type_ty; auto. Qed.
End Layout.

(* ---- local and global layouts enumerate identically (duplicates allowed) ---- *)
Section Keys.
Context {T : Type} {N : Num T}.
Variable C : cenv (T := T).

Definition add_key {K} `{Eqb K} (ks : list K) (k : K) : list K := if mem k ks then ks else ks ++ [k].

Lemma place_var_keys local vs idx i :
  map fst (fst (fold_left (place_var C local) vs (idx, i))) = fold_left add_key vs (map fst idx).
Proof.
  revert idx i; induction vs as [|v r IH]; intros idx i; simpl; auto.
  rewrite IH, dict_set_keys. reflexivity.
Qed.

Lemma place_type_keys local gs idx tix i idx' tix' i' :
  fold_left (place_type C local) gs (idx, tix, i) = (idx', tix', i') ->
  map fst idx' = fold_left (fun ks g => fold_left add_key (snd g) ks) gs (map fst idx) /\
  map fst tix' = fold_left (fun ks g => add_key ks (fst g)) gs (map fst tix).
Proof.
  revert idx tix i; induction gs as [|[t vs] r IH]; intros idx tix i; simpl; [intros [= -> -> ->]; auto|].
  pose proof (place_var_keys local vs idx i) as Hk.
  destruct (fold_left (place_var C local) vs (idx, i)) as [idx1 i1]. simpl in Hk.
  intros H. apply IH in H. destruct H as [H1 H2]. rewrite H1, H2, Hk, dict_set_keys. auto.
Qed.

Lemma local_global_enumerate vs :
  get_variables (make_layout C vs true) = get_variables (make_layout C vs false) /\
  get_variable_types (make_layout C vs true) = get_variable_types (make_layout C vs false) /\
  l_tcount (make_layout C vs true) = l_tcount (make_layout C vs false).
Proof.
  unfold make_layout.
  destruct (fold_left (place_type C true) (bucket vs) ([], [], 0)) as [[idx1 tix1] i1] eqn:H1.
  destruct (fold_left (place_type C false) (bucket vs) ([], [], 0)) as [[idx2 tix2] i2] eqn:H2.
  apply place_type_keys in H1. apply place_type_keys in H2.
  unfold get_variables, get_variable_types, dict_keys; simpl.
  destruct H1, H2. repeat split; congruence.
Qed.
End Keys.

(* ---- bundled statements ---- *)
Section Bundles.
Context {T : Type} {N : Num T}.
Variable C : cenv (T := T).

Lemma blocks_tile vs local : NoDup vs ->
  let L := make_layout C vs local in
  l_local L = local /\
  l_dim L = total (vdim C local) vs /\
  (forall v, In v vs <-> exists i, dict_get (l_index L) v = Some i) /\
  (forall v i, dict_get (l_index L) v = Some i -> i + vdim C local v <= l_dim L) /\
  (forall v w i j, dict_get (l_index L) v = Some i -> dict_get (l_index L) w = Some j -> v <> w ->
     i + vdim C local v <= j \/ j + vdim C local w <= i) /\
  (forall k, k < l_dim L -> exists! v, exists i, dict_get (l_index L) v = Some i /\ i <= k < i + vdim C local v).
Proof.
  intros ND L. unfold L. repeat split.
  - apply lay_local; auto.
  - apply lay_dim; auto.
  - apply lay_index_mem; auto.
  - apply lay_index_mem; auto.
  - intros v i. apply lay_bound; auto.
  - intros v w i j. apply lay_disjoint; auto.
  - intros k Hk. destruct (lay_cover C vs local ND k Hk) as (v & i & Hi & Hr).
    exists v. split; [eauto|]. intros w (j & Hj & Hr2).
    destruct (eqb_dec v w) as [E|Hn]; auto. exfalso.
    destruct (lay_disjoint C vs local ND v i w j Hi Hj Hn); lia.
Qed.

Lemma order_and_runs vs local : NoDup vs ->
  let L := make_layout C vs local in
  get_variables L = flat_map (fun t => of_type t vs) (firsts (map v_ty vs)) /\
  get_variable_types L = firsts (map v_ty vs) /\
  StronglySorted le (map snd (l_index L)) /\
  StronglySorted le (map snd (l_tindex L)) /\
  (forall t, In t (map v_ty vs) ->
     dict_get (l_tcount L) t = Some (length (of_type t vs)) /\
     exists ti, dict_get (l_tindex L) t = Some ti /\
       forall k v, nth_error (of_type t vs) k = Some v ->
         dict_get (l_index L) v = Some (ti + k * tdim C local t)).
Proof.
  intros ND L. unfold L. repeat split.
  - apply lay_vars; auto.
  - apply lay_types; auto.
  - apply lay_sorted; auto.
  - apply lay_tsorted; auto.
  - rewrite lay_tcount by auto. rewrite (proj2 (mem_in _ _)); auto.
  - apply lay_tindex_mem with (C := C) (local := local) in H; auto. destruct H as (ti & Hti).
    exists ti. split; auto. intros k v Hk. eapply lay_run; eauto.
Qed.
End Bundles.
