(* Construction of the stacked factor graph and evaluation of residuals *)
From Coq Require Import List Arith Bool Lia Permutation.
From Verif Require Import Num Py Arr PBase MLayout SpecLayout SpecTree PLayout PTree MAssign MNoise MSparse
  MFactor MGraph SpecAssign SpecGraph PAssign PAssign2 PStack.
Import ListNotations.

(* ---- columns built with lists[i].append ---- *)
Section Columns.
Context {A B : Type}.
Definition add_row (cols : list (list B)) (row : list B) : list (list B) := zipw (fun c x => c ++ [x]) cols row.

Lemma append_at_app (pre : list (list B)) c cols x :
  append_at (length pre) x (pre ++ c :: cols) = Ok (pre ++ (c ++ [x]) :: cols).
Proof. induction pre as [|p pre IH]; simpl; auto. rewrite IH. auto. Qed.

Lemma append_row (step : list (list B) -> nat * A -> result (list (list B))) (g : A -> B) l : forall s pre cols,
  (forall i v cols', nth_error l i = Some v -> step cols' (s + i, v) = append_at (s + i) (g v) cols') ->
  length pre = s -> length cols = length l ->
  foldM step (combine (seq s (length l)) l) (pre ++ cols) = Ok (pre ++ add_row cols (map g l)).
Proof.
  induction l as [|v l IH]; intros s pre cols Hs Hp Hc; destruct cols as [|c cols]; try discriminate; simpl; auto.
  pose proof (Hs 0 v (pre ++ c :: cols) eq_refl) as H0. rewrite Nat.add_0_r in H0. rewrite H0. subst s.
  rewrite append_at_app. cbn [bind].
  specialize (IH (S (length pre)) (pre ++ [c ++ [g v]]) cols).
  rewrite <- !app_assoc in IH. simpl in IH. rewrite IH; auto.
  - intros i w cols' Hi. specialize (Hs (S i) w cols' Hi). rewrite Nat.add_succ_r in Hs. auto.
  - rewrite app_length. simpl. lia.
Qed.
End Columns.

Definition dummy : var := mkVar 0 0.
Definition slot {T} (i : nat) (f : factor T) : var := nth i (f_vars f) dummy.

Lemma map_nth_seq {A} (d : A) l : map (fun i => nth i l d) (seq 0 (length l)) = l.
Proof.
  apply list_ext. intros k. rewrite nth_error_map.
  destruct (Nat.lt_ge_cases k (length l)) as [Hk|Hk].
  - rewrite nth_error_seq by auto. simpl. symmetry. apply nth_error_nth'. auto.
  - rewrite (proj2 (nth_error_None (seq 0 (length l)) k)) by (rewrite seq_length; auto).
    simpl. symmetry. apply nth_error_None; auto.
Qed.

Section Cols2.
Context {T B : Type}.
Variable g : var -> B.

Definition columns (k : nat) (fs : list (factor T)) : list (list B) :=
  map (fun i => map (fun f => g (slot i f)) fs) (seq 0 k).

Lemma add_row_columns k fs (f : factor T) : length (f_vars f) = k ->
  add_row (columns k fs) (map g (f_vars f)) = columns k (fs ++ [f]).
Proof.
  intros <-. rewrite <- (map_nth_seq dummy (f_vars f)) at 2. rewrite map_map.
  unfold columns, add_row. change (fun i => g (nth i (f_vars f) dummy)) with (fun i => g (slot i f)).
  generalize (seq 0 (length (f_vars f))). induction l as [|i l IH]; simpl; auto.
  rewrite map_app. simpl. f_equal. auto.
Qed.

Lemma columns_fold (step : factor T -> list (list B) -> nat * var -> result (list (list B))) k fs :
  (forall f i v cols', In f fs -> nth_error (f_vars f) i = Some v -> step f cols' (i, v) = append_at i (g v) cols') ->
  (forall f, In f fs -> length (f_vars f) = k) ->
  foldM (fun cols f => foldM (step f) (enumerate (f_vars f)) cols) fs (repeat [] k) = Ok (columns k fs).
Proof.
  intros Hs Hk.
  assert (H0 : repeat [] k = columns k (@nil (factor T))).
  { unfold columns. simpl. generalize 0. induction k as [|k IH]; intros s; simpl; auto.
    f_equal. clear. revert s. induction k; intros s; simpl; f_equal; auto. }
  rewrite H0.
  assert (H : forall l pre, fs = pre ++ l ->
    foldM (fun cols f => foldM (step f) (enumerate (f_vars f)) cols) l (columns k pre) = Ok (columns k fs)).
  { induction l as [|f l IH]; intros pre E; simpl; [rewrite E, app_nil_r; auto|].
    assert (Hf : In f fs) by (rewrite E; apply in_or_app; right; left; auto).
    unfold enumerate.
    pose proof (append_row (step f) g (f_vars f) 0 [] (columns k pre)) as Ha. cbn [app] in Ha. rewrite Ha; auto.
    - simpl. rewrite add_row_columns by auto. apply IH. rewrite E, <- app_assoc. auto.
    - unfold columns. rewrite map_length, seq_length. symmetry; auto. }
  apply (H fs []). auto.
Qed.
End Cols2.

Section Graph.
Context {T : Type} {N : Num T}.
Variable E : env T.
Let C := e_cls E.

Definition pos (L : layout) (v : var) : nat := match dict_get (l_index L) v with Some i => i | None => 0 end.
Definition indexed (L : layout) (v : var) : Prop := exists i, dict_get (l_index L) v = Some i.

(* ---- one stack ---- *)
Record is_stack (L : layout) (gfs : list (factor T)) (s : fstack T) : Prop := {
  is_ne : gfs <> [];
  is_num : fs_num s = length gfs;
  is_lay : fs_layout s = L;
  is_fac : forall i f, nth_error gfs i = Some f -> fd_index i (fs_factor s) = anonymize f;
  is_ty : forall f, In f gfs -> fd_types (fs_factor s) = map v_ty (f_vars f);
  is_dim : forall f, In f gfs -> noise_dim (fd_noise (fs_factor s)) = residual_dim f;
  is_idx : fs_idx s = columns (fun v => arange (pos L v) (vpdim C v)) (length (fd_types (fs_factor s))) gfs }.

Definition group_ok (gfs : list (factor T)) : Prop :=
  gfs <> [] /\ (forall f g, In f gfs -> In g gfs -> same_kind f g) /\ (forall f, In f gfs -> factor_ok f).

Lemma same_kind_dim (f g : factor T) : same_kind f g -> residual_dim f = residual_dim g.
Proof.
  intros (_ & _ & H3 & H4 & _). unfold residual_dim. revert H3 H4. generalize (f_noise f) (f_noise g).
  induction n as [W|D|w IH d]; intros [W'|D'|w' d']; simpl; try discriminate.
  - intros _ [= ->]; auto.
  - intros _ [= ->]; auto.
  - intros [= H1]. rewrite !map_app; simpl. intros H2. apply app_inj_tail in H2. apply IH; tauto.
Qed.
Lemma same_kind_vars (f g : factor T) : same_kind f g -> length (f_vars f) = length (f_vars g).
Proof. intros (_ & H & _). apply (f_equal (@length _)) in H. rewrite !map_length in H. auto. Qed.

Lemma stack_make_ok L gfs : group_ok gfs -> (forall f v, In f gfs -> In v (f_vars f) -> indexed L v) ->
  exists s, stack_make E gfs L = Ok s /\ is_stack L gfs s.
Proof.
  intros (Hne & Hk & Hok) Hix. destruct gfs as [|h r]; [congruence|].
  destruct (fd_stack_ok h r) as (fd & Efd & Hty & Hdim & Hi).
  { rewrite Forall_forall. intros f Hf. split; auto. apply Hk; auto. left; auto. }
  unfold stack_make. rewrite Efd. cbn [bind].
  assert (Hlen : forall f, In f (h :: r) -> length (f_vars f) = length (fd_types fd)).
  { intros f Hf. rewrite Hty, map_length. apply same_kind_vars. apply Hk; auto. left; auto. }
  rewrite (columns_fold (fun v => arange (pos L v) (vpdim C v)) (fun _ => value_index_step E h L)); auto.
  2:{ intros f i v cols Hf Hv. unfold value_index_step.
      assert (Hh : same_kind f h) by (apply Hk; auto; left; auto).
      destruct Hh as (_ & Hh & _).
      assert (Hn : nth_error (map v_ty (f_vars h)) i = Some (v_ty v)) by (rewrite <- Hh; apply map_nth_error; auto).
      rewrite nth_error_map in Hn. destruct (nth_error (f_vars h) i) as [v0|]; [|discriminate].
      simpl in Hn. injection Hn as Hn. rewrite Hn, Nat.eqb_refl. cbn [assert_ bind].
      destruct (Hix f v Hf) as (p & Hp); [apply nth_error_In in Hv; auto|].
      unfold dict_getE, pos. rewrite Hp. cbn [bind]. auto. }
  cbn [bind]. unfold columns at 1. rewrite map_length, seq_length, Nat.eqb_refl. cbn [assert_ bind].
  eexists; split; [reflexivity|]. constructor; cbn [fs_num fs_factor fs_idx fs_layout]; auto.
  - intros f Hf. rewrite Hty. apply Hk; auto. left; auto.
  - intros f Hf. rewrite Hdim. apply same_kind_dim. apply Hk; auto. left; auto.
Qed.

(* ---- Jacobian coordinates of one group ---- *)
Definition gkind_slots (gfs : list (factor T)) : nat := match gfs with [] => 0 | h :: _ => length (f_vars h) end.
Definition gkind_dim (gfs : list (factor T)) : nat := match gfs with [] => 0 | h :: _ => residual_dim h end.
Definition slot_type (i : nat) (gfs : list (factor T)) : vty := match gfs with [] => 0 | h :: _ => v_ty (slot i h) end.

Definition group_coords (Lloc : layout) (gfs : list (factor T)) (off : nat) : list coords :=
  map (fun i =>
    mkCoords
      (flat_map (fun n => flat_map (fun r => repeat (n * gkind_dim gfs + r + off) (local_dim (C (slot_type i gfs))))
                                   (seq 0 (gkind_dim gfs))) (seq 0 (length gfs)))
      (flat_map (fun f => flat_map (fun _ => arange (pos Lloc (slot i f)) (vldim C (slot i f)))
                                   (seq 0 (gkind_dim gfs))) gfs))
    (seq 0 (gkind_slots gfs)).

Lemma combine_map_seq {A B D} (f : A -> D) (g : nat -> B) (d : A) (l : list A) :
  combine (map f l) (map g (seq 0 (length l))) = map (fun i => (f (nth i l d), g i)) (seq 0 (length l)).
Proof.
  rewrite <- (map_nth_seq d l) at 1. rewrite map_map. generalize (seq 0 (length l)).
  induction l0; simpl; f_equal; auto.
Qed.

Lemma flat_map_map {A B D} (f : A -> B) (g : B -> list D) l : flat_map g (map f l) = flat_map (fun x => g (f x)) l.
Proof. rewrite !flat_map_concat_map, map_map. auto. Qed.

Lemma slot_ty gfs f i : group_ok gfs -> In f gfs -> i < gkind_slots gfs -> v_ty (slot i f) = slot_type i gfs.
Proof.
  intros (Hne & Hk & _) Hf Hi. destruct gfs as [|h r]; [congruence|]. simpl in *.
  assert (Hs : same_kind f h) by (apply Hk; auto; left; auto).
  pose proof (same_kind_vars _ _ Hs) as Hl. destruct Hs as (_ & Hs & _).
  unfold slot. rewrite <- !(map_nth v_ty), Hs. auto.
Qed.
Lemma slot_in gfs f i : group_ok gfs -> In f gfs -> i < gkind_slots gfs -> In (slot i f) (f_vars f).
Proof.
  intros (Hne & Hk & _) Hf Hi. destruct gfs as [|h r]; [congruence|]. simpl in *.
  assert (Hs : same_kind f h) by (apply Hk; auto; left; auto).
  apply nth_In. rewrite (same_kind_vars _ _ Hs). auto.
Qed.

Lemma jacobian_coords_ok Lloc gfs off : group_ok gfs -> (forall f v, In f gfs -> In v (f_vars f) -> indexed Lloc v) ->
  jacobian_coords E gfs Lloc off = Ok (group_coords Lloc gfs off).
Proof.
  intros Hg Hix. pose proof Hg as (Hne & Hk & Hok). destruct gfs as [|h r]; [congruence|].
  unfold jacobian_coords. rewrite map_length.
  rewrite (columns_fold (fun v => arange (pos Lloc v) (vldim C v)) (fun _ => local_index_step E Lloc)).
  - cbn [bind]. unfold columns. rewrite (combine_map_seq v_ty _ dummy), traverse_map.
    rewrite (traverse_all _ (fun i => mkCoords
      (flat_map (fun n => flat_map (fun r0 => repeat (n * residual_dim h + r0 + off) (local_dim (C (slot_type i (h :: r)))))
                                   (seq 0 (residual_dim h))) (seq 0 (length (h :: r))))
      (flat_map (fun f => flat_map (fun _ => arange (pos Lloc (slot i f)) (vldim C (slot i f)))
                                   (seq 0 (residual_dim h))) (h :: r)))); [reflexivity|].
    intros i Hi. apply in_seq in Hi. unfold slot_coords. cbn [fst snd].
    rewrite (proj2 (forallb_forall _ _)).
    + rewrite flat_map_map. reflexivity.
    + intros row Hrow. apply in_map_iff in Hrow. destruct Hrow as (f & <- & Hf). unfold arange. rewrite seq_length.
      apply Nat.eqb_eq. unfold vldim, C. f_equal. f_equal. apply (slot_ty (h :: r) f i); auto. simpl. lia.
  - intros f i v cols Hf Hv. unfold local_index_step. destruct (Hix f v Hf) as (p & Hp); [apply nth_error_In in Hv; auto|].
    unfold dict_getE, pos. rewrite Hp. auto.
  - intros f Hf. apply same_kind_vars. apply Hk; auto. left; auto.
Qed.

(* ---- the whole graph ---- *)
Definition kgroups (fs : list (factor T)) : list (list (factor T)) :=
  map (fun k => filter (fun f => eqb (group_key f) k) fs) (firsts (map group_key fs)).
Definition gdim (gfs : list (factor T)) : nat := total residual_dim gfs.

Lemma group_factors_closed (fs : list (factor T)) :
  group_factors fs = map (fun k => (k, filter (fun f => eqb (group_key f) k) fs)) (firsts (map group_key fs)).
Proof. exact (bucket_by_spec group_key fs). Qed.
Lemma group_factors_snd (fs : list (factor T)) : map snd (group_factors fs) = kgroups fs.
Proof. rewrite group_factors_closed, map_map. auto. Qed.

Lemma kgroups_ok fs : (forall f, In f fs -> factor_ok f) -> forall gfs, In gfs (kgroups fs) -> group_ok gfs.
Proof.
  intros Hok gfs Hg. apply in_map_iff in Hg. destruct Hg as (k & <- & Hk). split; [|split].
  - apply (proj1 (firsts_in _ _)) in Hk. apply in_map_iff in Hk. destruct Hk as (f & <- & Hf).
    intros Hc. assert (Hin : In f (filter (fun g => eqb (group_key g) (group_key f)) fs)).
    { apply filter_In. split; auto. apply eqb_ok; auto. }
    rewrite Hc in Hin; destruct Hin.
  - intros f g Hf Hg. apply filter_In in Hf. apply filter_In in Hg. destruct Hf as [_ Hf], Hg as [_ Hg].
    apply eqb_ok in Hf, Hg. apply group_key_kind. congruence.
  - intros f Hf. apply filter_In in Hf. apply Hok; tauto.
Qed.

Lemma kgroups_perm fs : Permutation (concat (kgroups fs)) fs.
Proof.
  unfold kgroups. rewrite <- flat_map_concat_map. apply (groups_perm group_key).
  - apply firsts_nodup.
  - intros f Hf. apply firsts_in. apply in_map; auto.
Qed.
Lemma kgroups_in fs gfs f : In gfs (kgroups fs) -> In f gfs -> In f fs.
Proof.
  intros Hg Hf. apply (Permutation_in _ (kgroups_perm fs)). apply in_concat. eauto.
Qed.

Lemma firsts_fold_keys {K} `{Eqb K} (l : list K) (d : dict K unit) : NoDup (map fst d) ->
  map fst (fold_left (fun d v => dict_set d v tt) l d) = fold_left add_key l (map fst d).
Proof.
  revert d; induction l as [|v l IH]; intros d ND; simpl; auto.
  rewrite IH by (apply dict_set_nodup; auto). rewrite dict_set_keys. auto.
Qed.
Lemma firsts_app_fold {K} `{Eqb K} (l : list K) : fold_left add_key l [] = firsts l.
Proof.
  induction l as [|v l IH] using rev_ind; simpl; auto.
  rewrite fold_left_app, IH. simpl. rewrite firsts_snoc. unfold add_key.
  destruct (mem v l) eqn:Em.
  - rewrite (proj2 (mem_in _ _)); auto. apply firsts_in. apply mem_in; auto.
  - rewrite (proj2 (mem_not_in _ _)); auto. rewrite firsts_in. apply mem_not_in; auto.
Qed.
Lemma ordered_variables_mentioned (fs : list (factor T)) : ordered_variables fs = mentioned fs.
Proof.
  unfold ordered_variables, mentioned, dict_keys.
  assert (H : forall d, fold_left (fun d f => fold_left (fun d v => dict_set d v tt) (f_vars f) d) fs d =
    fold_left (fun d v => dict_set d v tt) (flat_map f_vars fs) d).
  { induction fs as [|f fs IH]; intros d; simpl; auto. rewrite fold_left_app. auto. }
  rewrite H, firsts_fold_keys by constructor. apply firsts_app_fold.
Qed.

Lemma mentioned_in (fs : list (factor T)) v : In v (mentioned fs) <-> exists f, In f fs /\ In v (f_vars f).
Proof. unfold mentioned. rewrite firsts_in, in_flat_map. tauto. Qed.
Lemma mentioned_nodup (fs : list (factor T)) : NoDup (mentioned fs).
Proof. apply firsts_nodup. Qed.

Definition graph_layout (fs : list (factor T)) (local : bool) : layout := make_layout C (mentioned fs) local.
Definition all_coords (fs : list (factor T)) : list coords :=
  concat (map (fun go => group_coords (graph_layout fs true) (fst go) (snd go)) (place gdim 0 (kgroups fs))).

Record is_graph (fs : list (factor T)) (g : graph T) : Prop := {
  ig_stacks : Forall2 (is_stack (graph_layout fs false)) (kgroups fs) (g_stacks g);
  ig_coords : g_coords g = mkCoords (concat (map c_rows (all_coords fs))) (concat (map c_cols (all_coords fs)));
  ig_layout : g_layout g = graph_layout fs false;
  ig_local : g_local_layout g = graph_layout fs true;
  ig_dim : g_residual_dim g = total residual_dim fs }.

Lemma total_concat {A} (d : A -> nat) ls : total d (concat ls) = total (fun l => total d l) ls.
Proof. induction ls; simpl; auto. rewrite total_app, IHls. auto. Qed.

Lemma stack_dim L gfs s : is_stack L gfs s -> stack_residual_dim s = gdim gfs.
Proof.
  intros H. unfold stack_residual_dim, gdim. rewrite (is_num _ _ _ H).
  rewrite (total_const _ (noise_dim (fd_noise (fs_factor s)))); [lia|].
  intros f Hf. symmetry. apply (is_dim _ _ _ H); auto.
Qed.

Lemma graph_fold (L Lloc : layout) (gs : list (gkey * list (factor T))) : forall stacks cs off,
  (forall kv, In kv gs -> group_ok (snd kv)) ->
  (forall kv f v, In kv gs -> In f (snd kv) -> In v (f_vars f) -> indexed L v /\ indexed Lloc v) ->
  exists new, foldM (graph_step E L Lloc) gs (stacks, cs, off) =
    Ok (stacks ++ new,
        cs ++ concat (map (fun go => group_coords Lloc (fst go) (snd go)) (place gdim off (map snd gs))),
        off + total gdim (map snd gs)) /\
    Forall2 (is_stack L) (map snd gs) new.
Proof.
  induction gs as [|[k gfs] gs IH]; intros stacks cs off Hok Hix.
  - exists []. simpl. rewrite !app_nil_r, Nat.add_0_r. auto.
  - assert (Hg : group_ok gfs) by (apply (Hok (k, gfs)); left; auto).
    destruct (stack_make_ok L gfs Hg) as (s & Es & Hs).
    { intros f v Hf Hv. apply (Hix (k, gfs) f v); auto. left; auto. }
    assert (Ec : jacobian_coords E gfs Lloc off = Ok (group_coords Lloc gfs off)).
    { apply jacobian_coords_ok; auto. intros f v Hf Hv. apply (Hix (k, gfs) f v); auto. left; auto. }
    destruct (IH (stacks ++ [s]) (cs ++ group_coords Lloc gfs off) (off + gdim gfs)) as (new & En & Hn).
    { intros kv Hkv. apply Hok; right; auto. }
    { intros kv f v Hkv. apply Hix; right; auto. }
    exists (s :: new). cbn [map snd place foldM graph_step fst]. cbn [snd]. rewrite Es. cbn [bind]. rewrite Ec. cbn [bind].
    rewrite (stack_dim L gfs s Hs), En. split; [|constructor; auto].
    rewrite <- !app_assoc. cbn [total fold_right concat map app fst snd]. f_equal. f_equal. rewrite <- Nat.add_assoc. reflexivity.
Qed.

Lemma graph_indexed fs local f v : In f fs -> In v (f_vars f) -> indexed (graph_layout fs local) v.
Proof.
  intros Hf Hv. unfold indexed, graph_layout.
  apply (lay_index_mem C (mentioned fs) local); [apply mentioned_nodup|]. apply mentioned_in. eauto.
Qed.

Lemma graph_make_ok fs : (forall f, In f fs -> factor_ok f) ->
  ((exists f, In f fs /\ f_vars f <> []) -> exists g, graph_make E fs = Ok g /\ is_graph fs g) /\
  ((forall f, In f fs -> f_vars f = []) -> graph_make E fs = Err TypeError).
Proof.
  intros Hok. unfold graph_make. rewrite ordered_variables_mentioned.
  fold C. fold (graph_layout fs false) (graph_layout fs true).
  destruct (graph_fold (graph_layout fs false) (graph_layout fs true) (group_factors fs) [] [] 0) as (new & En & Hn).
  { intros [k gfs] Hkv. apply (kgroups_ok fs Hok). rewrite <- group_factors_snd. apply in_map_iff. exists (k, gfs); auto. }
  { intros [k gfs] f v Hkv Hf Hv.
    assert (Hin : In f fs).
    { apply (kgroups_in fs gfs); auto. rewrite <- group_factors_snd. apply in_map_iff. exists (k, gfs); auto. }
    split; eapply graph_indexed; eauto. }
  rewrite En. cbn [bind]. rewrite group_factors_snd in *. simpl app. fold (all_coords fs). split.
  - intros (f & Hf & Hv).
    assert (Hcs : all_coords fs <> []).
    { apply (Permutation_in _ (Permutation_sym (kgroups_perm fs))) in Hf. apply in_concat in Hf.
      destruct Hf as (gfs & Hg & Hf).
      rewrite <- (place_fst gdim 0 (kgroups fs)) in Hg. apply in_map_iff in Hg. destruct Hg as ([gfs' off] & Eg & Hg).
      simpl in Eg; subst gfs'.
      assert (Hge : group_ok gfs).
      { apply (kgroups_ok fs Hok). rewrite <- (place_fst gdim 0 (kgroups fs)). apply in_map_iff. exists (gfs, off); auto. }
      intros Hc. unfold all_coords in Hc. rewrite <- flat_map_concat_map in Hc.
      assert (Hnil : group_coords (graph_layout fs true) gfs off = []).
      { destruct (group_coords (graph_layout fs true) gfs off) as [|c l] eqn:Eg; auto. exfalso.
        assert (Hin : In c (flat_map (fun go => group_coords (graph_layout fs true) (fst go) (snd go)) (place gdim 0 (kgroups fs)))).
        { apply in_flat_map. exists (gfs, off). split; auto. simpl. rewrite Eg. left; auto. }
        rewrite Hc in Hin; destruct Hin. }
      unfold group_coords in Hnil. apply map_eq_nil in Hnil.
      destruct gfs as [|h r]; [destruct Hf|]. simpl in Hnil.
      destruct Hge as (_ & Hk & _). assert (Hs : same_kind f h) by (apply Hk; [auto | left; auto]).
      apply same_kind_vars in Hs. destruct (f_vars h); [|discriminate]. destruct (f_vars f); [congruence | discriminate]. }
    destruct (all_coords fs) as [|c0 cr] eqn:Ea; [congruence|].
    eexists; split; [reflexivity|]. constructor; cbn [g_stacks g_coords g_layout g_local_layout g_residual_dim]; auto.
    + rewrite Ea. auto.
    + simpl. rewrite <- (total_perm _ _ _ (kgroups_perm fs)), total_concat. auto.
  - intros Hnone.
    assert (Hnil : all_coords fs = []).
    { unfold all_coords. rewrite <- flat_map_concat_map.
      assert (Hall : forall go, In go (place gdim 0 (kgroups fs)) -> group_coords (graph_layout fs true) (fst go) (snd go) = []).
      { intros [gfs off] Hg. simpl. unfold group_coords. destruct gfs as [|h r]; auto.
        assert (Hh : In h fs).
        { apply (kgroups_in fs (h :: r)); [|left; auto]. rewrite <- (place_fst gdim 0 (kgroups fs)).
          apply in_map_iff. exists (h :: r, off); auto. }
        unfold gkind_slots. rewrite (Hnone h Hh). auto. }
      revert Hall. generalize (place gdim 0 (kgroups fs)). induction l as [|x l IH]; intros Hall; simpl; auto.
      rewrite Hall by (left; auto). apply IH. intros; apply Hall; right; auto. }
    rewrite Hnil. auto.
Qed.

(* ---- evaluation ---- *)
Definition reads (L : layout) (st : list T) (val : var -> pytree T) (v : var) : Prop :=
  pos L v + vpdim C v <= length st /\
  unflatten (C (v_ty v)) (slice st (pos L v) (pos L v + vpdim C v)) = Ok (val v).

Lemma in_place_split {A} (l : list A) x : In x l -> exists i, nth_error l i = Some x.
Proof. apply In_nth_error. Qed.

Lemma columns_types (gfs : list (factor T)) (s : fstack T) L : group_ok gfs -> is_stack L gfs s ->
  length (fd_types (fs_factor s)) = gkind_slots gfs.
Proof.
  intros (Hne & _) Hs. destruct gfs as [|h r]; [congruence|].
  rewrite (is_ty _ _ _ Hs h) by (left; auto). apply map_length.
Qed.

Lemma stack_values_ok L gfs s a val : group_ok gfs -> is_stack L gfs s ->
  (forall f v, In f gfs -> In v (f_vars f) -> reads L (as_storage a) val v) ->
  stack_values E s a = Ok (columns val (gkind_slots gfs) gfs).
Proof.
  intros Hg Hs Hr. unfold stack_values. rewrite (is_idx _ _ _ Hs). unfold columns at 1.
  pose proof (columns_types gfs s L Hg Hs) as Hlen.
  destruct gfs as [|h r] eqn:Eg; [destruct Hg; congruence|]. rewrite <- Eg in *.
  assert (Hh : In h gfs) by (rewrite Eg; left; auto).
  rewrite (is_ty _ _ _ Hs h Hh), map_length.
  assert (Hk : gkind_slots gfs = length (f_vars h)) by (rewrite Eg; auto).
  rewrite (combine_map_seq v_ty _ dummy), traverse_map.
  rewrite (traverse_all _ (fun i => map (fun f => val (slot i f)) gfs)).
  - rewrite Hk. reflexivity.
  - intros i Hi. apply in_seq in Hi. cbn [fst snd]. rewrite traverse_map.
    apply traverse_all. intros f Hf.
    assert (Hin : In (slot i f) (f_vars f)) by (apply (slot_in gfs); auto; lia).
    destruct (Hr f (slot i f) Hf Hin) as [Hb Hu].
    unfold arange. rewrite gather_seq by auto. rewrite <- Hu. f_equal.
    fold C. f_equal. rewrite (slot_ty gfs f i) by (auto; lia). rewrite Eg. reflexivity.
Qed.

Lemma row_columns (val : var -> pytree T) (gfs : list (factor T)) n f : group_ok gfs -> nth_error gfs n = Some f ->
  row_values n (columns val (gkind_slots gfs) gfs) = map val (f_vars f).
Proof.
  intros (Hne & Hk & _) Hn. unfold row_values, columns. rewrite map_map.
  assert (Hl : gkind_slots gfs = length (f_vars f)).
  { destruct gfs as [|h r]; [congruence|]. simpl. apply same_kind_vars. apply Hk; [left; auto | eapply nth_error_In; eauto]. }
  rewrite Hl. rewrite <- (map_nth_seq dummy (f_vars f)) at 2. rewrite map_map. apply map_ext. intros i.
  apply nth_error_nth. rewrite (map_nth_error _ _ _ Hn). auto.
Qed.

Lemma map_seq_nth {A B} (F : nat -> B) (G : A -> B) (l : list A) :
  (forall n x, nth_error l n = Some x -> F n = G x) -> map F (seq 0 (length l)) = map G l.
Proof.
  intros H. apply list_ext. intros k. rewrite !nth_error_map.
  destruct (Nat.lt_ge_cases k (length l)) as [Hk|Hk].
  - rewrite nth_error_seq by auto. destruct (nth_error l k) eqn:El; [|apply nth_error_None in El; lia].
    simpl. f_equal. apply H; auto.
  - rewrite (proj2 (nth_error_None (seq 0 (length l)) k)) by (rewrite seq_length; auto).
    rewrite (proj2 (nth_error_None l k)) by auto. auto.
Qed.

Lemma stack_residuals_ok L gfs s a val : group_ok gfs -> is_stack L gfs s ->
  layout_eqb (as_layout a) L = true ->
  (forall f v, In f gfs -> In v (f_vars f) -> reads L (as_storage a) val v) ->
  stack_residuals E s a = Ok (map (residual_at E val) gfs).
Proof.
  intros Hg Hs HL Hr. unfold stack_residuals. rewrite (is_lay _ _ _ Hs), HL. cbn [assert_ bind].
  rewrite (stack_values_ok L gfs s a val) by auto. cbn [bind]. f_equal. rewrite (is_num _ _ _ Hs).
  apply map_seq_nth. intros n f Hn. rewrite (is_fac _ _ _ Hs n f Hn).
  rewrite (row_columns val gfs n f) by auto. reflexivity.
Qed.

Lemma traverse_enumerate {A B} (F : nat * A -> result B) (G : A -> result B) l :
  (forall n x, nth_error l n = Some x -> F (n, x) = G x) -> traverse F (enumerate l) = traverse G l.
Proof.
  unfold enumerate. intros H.
  assert (Hg : forall l s, (forall n x, nth_error l n = Some x -> F (s + n, x) = G x) ->
    traverse F (combine (seq s (length l)) l) = traverse G l).
  { clear. induction l as [|x l IH]; intros s H; simpl; auto.
    pose proof (H 0 x eq_refl) as H0. rewrite Nat.add_0_r in H0. rewrite H0, IH; auto.
    intros n y Hy. rewrite <- (H (S n) y Hy). do 2 f_equal. lia. }
  apply Hg. auto.
Qed.

Lemma stack_whitened_ok L gfs s a val : group_ok gfs -> is_stack L gfs s ->
  layout_eqb (as_layout a) L = true ->
  (forall f v, In f gfs -> In v (f_vars f) -> reads L (as_storage a) val v) ->
  stack_whitened E s a = (ws <- traverse (whitened_at E val) gfs ;; Ok (concat ws)).
Proof.
  intros Hg Hs HL Hr. unfold stack_whitened. rewrite (stack_residuals_ok L gfs s a val) by auto. cbn [bind].
  f_equal.
  assert (Hx : forall l0 (l : list (factor T)) k, (forall n f, nth_error l n = Some f -> nth_error gfs (k + n) = Some f) -> l0 = map (residual_at E val) l ->
    traverse (fun nr => whiten_residual (noise_index (fst nr) (fd_noise (fs_factor s))) (snd nr)) (combine (seq k (length l0)) l0)
    = traverse (whitened_at E val) l).
  { clear -Hs. intros l0 l; revert l0. induction l as [|f l IH]; intros l0 k Hn ->; simpl; auto.
    assert (Hf : nth_error gfs k = Some f) by (specialize (Hn 0 f eq_refl); rewrite Nat.add_0_r in Hn; auto).
    pose proof (is_fac _ _ _ Hs k f Hf) as Hfd.
    assert (Hno : noise_index k (fd_noise (fs_factor s)) = f_noise f).
    { change (noise_index k (fd_noise (fs_factor s))) with (fd_noise (fd_index k (fs_factor s))). rewrite Hfd. auto. }
    rewrite Hno. unfold whitened_at at 1. rewrite (IH (map (residual_at E val) l) (S k)); auto.
    intros n g Hg. rewrite <- (Hn (S n) g Hg). f_equal. lia. }
  unfold enumerate. apply (Hx _ gfs 0); auto.
Qed.
End Graph.
