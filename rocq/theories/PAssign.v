(* Facts about VariableAssignments *)
From Coq Require Import List Arith Bool Lia Permutation.
From Verif Require Import Num Py Arr PBase MLayout SpecLayout SpecTree PLayout PTree MAssign SpecAssign.
Import ListNotations.

Section Assign.
Context {T : Type} {N : Num T}.
Variable C : cenv (T := T).

Local Notation wf_assign := (SpecAssign.wf_assign C).
Local Notation block := (SpecAssign.block C).
Local Notation lookup_or_default := (SpecAssign.lookup_or_default C).

Section Blocks.
Variables (vs : list var) (local : bool).
Hypothesis ND : NoDup vs.
Let L := make_layout C vs local.

Lemma block_length st v : length st = l_dim L -> In v vs -> length (block L st v) = vdim C local v.
Proof.
  intros Hl Hv. unfold SpecAssign.block. apply (lay_index_mem C vs local ND) in Hv. destruct Hv as (i & Hi).
  fold L in Hi. rewrite Hi. unfold L. rewrite lay_local by auto.
  rewrite slice_length; [lia | lia |]. rewrite Hl. apply lay_bound; auto.
Qed.

Lemma blocks_ext st st' : length st = l_dim L -> length st' = l_dim L ->
  (forall v, In v vs -> block L st v = block L st' v) -> st = st'.
Proof.
  intros H1 H2 H. apply list_ext. intros k.
  destruct (Nat.lt_ge_cases k (l_dim L)) as [Hk|Hk].
  - destruct (lay_cover C vs local ND k Hk) as (v & i & Hi & Hr).
    assert (Hv : In v vs) by (apply (lay_index_mem C vs local ND); eauto).
    specialize (H v Hv). unfold SpecAssign.block in H. fold L in Hi. rewrite Hi in H.
    unfold L in H. rewrite !lay_local in H by auto.
    eapply nth_error_of_slice; eauto.
  - transitivity (@None T); [|symmetry]; apply nth_error_None; lia.
Qed.

(* writing one block leaves the others alone *)
Lemma block_other st st' v i w : dict_get (l_index L) v = Some i -> In w vs -> w <> v ->
  (forall k, k < i \/ i + vdim C local v <= k -> nth_error st' k = nth_error st k) ->
  block L st' w = block L st w.
Proof.
  intros Hi Hw Hn H. unfold SpecAssign.block.
  apply (lay_index_mem C vs local ND) in Hw. destruct Hw as (j & Hj). fold L in Hj. rewrite Hj.
  unfold L. rewrite lay_local by auto. apply slice_ext. intros k Hk. apply H.
  destruct (lay_disjoint C vs local ND _ _ _ _ Hi Hj); auto; lia.
Qed.
End Blocks.

(* storage made of consecutive pieces *)
Lemma slice_concat_place {A} (dim : A -> nat) (f : A -> list T) s vs v i :
  (forall x, In x vs -> length (f x) = dim x) -> In (v, i) (place dim s vs) ->
  slice (concat (map f vs)) (i - s) (i - s + dim v) = f v.
Proof.
  intros Hf H. apply in_split in H. destruct H as (p1 & p2 & H).
  assert (Hv : vs = map fst p1 ++ v :: map fst p2).
  { rewrite <- (place_fst dim s vs), H, map_app. auto. }
  assert (Hn : nth_error vs (length p1) = Some v).
  { rewrite Hv, nth_error_app2; rewrite map_length; auto. rewrite Nat.sub_diag; auto. }
  apply (place_nth dim s) in Hn. rewrite H, nth_error_app2, Nat.sub_diag in Hn by auto.
  simpl in Hn. injection Hn as ->.
  rewrite Hv, firstn_app, map_length, Nat.sub_diag, firstn_O, app_nil_r, firstn_all2 by (rewrite map_length; auto).
  rewrite map_app, concat_app; simpl.
  assert (Hlen : forall l, (forall x, In x l -> In x vs) -> length (concat (map f l)) = total dim l).
  { induction l as [|x l IH]; intros Hl; simpl; auto. rewrite app_length, Hf, IH; auto.
    - intros; apply Hl; right; auto.
    - apply Hl; left; auto. }
  apply slice_app_exact.
  - rewrite Hlen; [lia|]. intros x Hx. rewrite Hv. apply in_or_app; auto.
  - f_equal. rewrite Hf; auto. rewrite Hv. apply in_or_app; right; left; auto.
Qed.

Lemma concat_total {A} (dim : A -> nat) (f : A -> list T) vs :
  (forall x, In x vs -> length (f x) = dim x) -> length (concat (map f vs)) = total dim vs.
Proof.
  induction vs as [|x l IH]; intros Hl; simpl; auto. rewrite app_length, Hl, IH; auto.
  - intros; apply Hl; right; auto.
  - left; auto.
Qed.

Lemma block_concat vs local (f : var -> list T) v : NoDup vs ->
  (forall x, In x vs -> length (f x) = vdim C local x) -> In v vs ->
  block (make_layout C vs local) (concat (map f (order vs))) v = f v.
Proof.
  intros ND Hf Hv. unfold SpecAssign.block.
  pose proof Hv as Hv2. apply (lay_index_mem C vs local ND) in Hv2. destruct Hv2 as (i & Hi). rewrite Hi.
  rewrite lay_local by auto. apply (lay_index_in C vs local ND) in Hi.
  pose proof (slice_concat_place (vdim C local) f 0 (order vs) v i) as H. rewrite Nat.sub_0_r in H.
  apply H; auto. intros x Hx. apply Hf. apply order_in; auto.
Qed.

Lemma order_nonempty vs : vs <> [] -> order vs <> [].
Proof.
  intros H E. apply H. destruct vs as [|v r]; auto.
  assert (Hin : In v (order (v :: r))) by (apply order_in; left; auto). rewrite E in Hin; destruct Hin.
Qed.

Lemma concatenate_ok {A} (ls : list (list A)) : ls <> [] -> concatenate ls = Ok (concat ls).
Proof. destruct ls; simpl; congruence. Qed.

(* ---- construction ---- *)
Hypothesis CO : classes_ok C.

Lemma default_ok t : value_ok (C t) (vc_default (C t)).
Proof. split; [apply CO | apply same_shape_refl]. Qed.

Lemma make_partial_ok vs (d : dict var (pytree T)) :
  NoDup vs -> vs <> [] ->
  (forall v x, In v vs -> dict_get d v = Some x -> value_ok (C (v_ty v)) x) ->
  exists a, make_from_partial_dict C vs d = Ok a /\ wf_assign vs false a /\
    as_storage a = concat (map (fun v => flatten (lookup_or_default d v)) (order vs)) /\
    forall v, In v vs -> block (as_layout a) (as_storage a) v = flatten (lookup_or_default d v).
Proof.
  intros ND Hne Hd.
  assert (Hlen : forall v, In v vs -> length (flatten (lookup_or_default d v)) = vdim C false v).
  { intros v Hv. unfold vdim, tdim. apply flatten_length; [apply CO|].
    unfold SpecAssign.lookup_or_default. destruct (dict_get d v) eqn:E; eauto. apply default_ok. }
  unfold make_from_partial_dict. rewrite lay_vars by auto.
  rewrite concatenate_ok.
  2:{ intros E. apply map_eq_nil in E. apply (order_nonempty vs Hne E). }
  simpl. fold (lookup_or_default d).
  assert (Hl : length (concat (map (fun v => flatten (lookup_or_default d v)) (order vs))) = l_dim (make_layout C vs false)).
  { rewrite (concat_total (vdim C false)).
    - rewrite lay_dim by auto. apply total_perm, order_perm.
    - intros v Hv. apply Hlen. apply order_in; auto. }
  unfold SpecAssign.lookup_or_default in Hl |- *. rewrite (proj2 (Nat.eqb_eq _ _) Hl). simpl.
  eexists; split; [reflexivity|]. simpl. split; [split; [auto | split; auto]|].
  split; auto. intros v Hv. apply (block_concat vs false (fun v => flatten (lookup_or_default d v))); auto.
Qed.

(* reading *)
Lemma get_value_block vs a v : wf_assign vs false a -> In v vs ->
  get_value C a v = unflatten (C (v_ty v)) (block (as_layout a) (as_storage a) v).
Proof.
  intros (ND & HL & Hs) Hv. unfold get_value, SpecAssign.block, dict_getE. rewrite HL.
  apply (lay_index_mem C vs false ND) in Hv. destruct Hv as (i & Hi). rewrite Hi. simpl.
  rewrite lay_local by auto. auto.
Qed.
Lemma get_value_foreign vs local a v : wf_assign vs local a -> ~ In v vs -> get_value C a v = Err KeyError.
Proof.
  intros (ND & HL & Hs) Hv. unfold get_value, dict_getE. rewrite HL.
  destruct (dict_get (l_index (make_layout C vs local)) v) eqn:E; auto.
  exfalso; apply Hv. apply (lay_index_mem C vs local ND). eauto.
Qed.
Lemma get_value_ok vs a v : wf_assign vs false a -> In v vs ->
  exists x, get_value C a v = Ok x /\ value_ok (C (v_ty v)) x /\ flatten x = block (as_layout a) (as_storage a) v.
Proof.
  intros H Hv. rewrite (get_value_block vs) by auto. apply unflatten_ok; [apply CO|].
  destruct H as (ND & HL & Hs). rewrite HL in *. apply block_length; auto.
Qed.

(* two assignments over the same layout with the same values are the same *)
Lemma values_ext vs a b : wf_assign vs false a -> wf_assign vs false b ->
  (forall v, In v vs -> get_value C a v = get_value C b v) -> a = b.
Proof.
  intros Ha Hb H. pose proof Ha as (ND & HL & Hs). pose proof Hb as (_ & HL' & Hs').
  assert (as_storage a = as_storage b).
  { apply (blocks_ext vs false ND); try congruence.
    intros v Hv. specialize (H v Hv).
    destruct (get_value_ok vs a v Ha Hv) as (x & E1 & _ & F1).
    destruct (get_value_ok vs b v Hb Hv) as (y & E2 & _ & F2).
    rewrite HL in F1. rewrite HL' in F2. congruence. }
  destruct a, b; simpl in *; congruence.
Qed.

Lemma partial_values vs (d : dict var (pytree T)) :
  NoDup vs -> vs <> [] ->
  (forall v x, In v vs -> dict_get d v = Some x -> value_ok (C (v_ty v)) x) ->
  exists a, make_from_partial_dict C vs d = Ok a /\ wf_assign vs false a /\
    (forall v, In v vs -> get_value C a v = Ok (lookup_or_default d v)) /\
    (forall v, ~ In v vs -> get_value C a v = Err KeyError).
Proof.
  intros ND Hne Hd. destruct (make_partial_ok vs d ND Hne Hd) as (a & E & Hwf & _ & Hb).
  exists a. split; auto. split; auto. split.
  - intros v Hv. rewrite (get_value_block vs) by auto. rewrite Hb by auto.
    apply unflatten_flatten; [apply CO|].
    unfold SpecAssign.lookup_or_default. destruct (dict_get d v) eqn:E2; eauto. apply default_ok.
  - intros v Hv. apply (get_value_foreign vs false); auto.
Qed.

Lemma as_dict_ok vs a : wf_assign vs false a ->
  exists d, as_dict C a = Ok d /\ map fst d = order vs /\
    forall v x, In (v, x) d <-> In v vs /\ get_value C a v = Ok x.
Proof.
  intros Hwf. pose proof Hwf as (ND & HL & Hs). unfold as_dict. rewrite HL, lay_vars by auto.
  assert (H : forall l, (forall v, In v l -> In v vs) ->
    exists d, traverse (fun v => x <- get_value C a v ;; Ok (v, x)) l = Ok d /\ map fst d = l /\
      forall v x, In (v, x) d <-> In v l /\ get_value C a v = Ok x).
  { induction l as [|w l IH]; intros Hl; simpl.
    - exists []; simpl; repeat split; auto; tauto.
    - destruct (get_value_ok vs a w Hwf) as (y & Ey & _ & _); [apply Hl; left; auto|].
      rewrite Ey; simpl. destruct IH as (d & Ed & Hk & Hd); [intros; apply Hl; right; auto|].
      rewrite Ed; simpl. exists ((w, y) :: d); simpl. split; auto. split; [congruence|].
      intros v x. rewrite Hd. split.
      + intros [E|H]; [injection E as -> ->; auto | tauto].
      + intros [[->|Hin] Hx]; [left; congruence | tauto]. }
  destruct (H (order vs)) as (d & Ed & Hk & Hd); [intros v Hv; apply order_in; auto|].
  exists d. split; auto. split; auto. intros v x. rewrite Hd, order_in. tauto.
Qed.

Lemma dict_values (d : dict var (pytree T)) :
  NoDup (map fst d) -> d <> [] -> (forall v x, In (v, x) d -> value_ok (C (v_ty v)) x) ->
  exists a, make_from_dict C d = Ok a /\ wf_assign (map fst d) false a /\
    (forall v x, In (v, x) d -> get_value C a v = Ok x) /\
    (forall v, ~ In v (map fst d) -> get_value C a v = Err KeyError).
Proof.
  intros ND Hne Hd. unfold make_from_dict, dict_keys.
  destruct (partial_values (map fst d) d) as (a & E & Hwf & Hv & Hf); auto.
  - intros E. apply map_eq_nil in E; auto.
  - intros v x _ Hx. apply Hd. apply dict_get_in; auto.
  - exists a. repeat split; auto; try apply Hwf. intros v x Hx. rewrite Hv.
    + unfold SpecAssign.lookup_or_default. apply dict_get_nodup in Hx; auto. rewrite Hx; auto.
    + apply in_map_iff. exists (v, x); auto.
Qed.

(* defaults *)
Lemma defaults_storage vs :
  concat (map (fun t => concat (repeat (flatten (vc_default (C t))) (length (of_type t vs)))) (firsts (map v_ty vs)))
  = concat (map (fun v => flatten (lookup_or_default [] v)) (order vs)).
Proof.
  unfold order. rewrite flat_map_concat_map, concat_map, map_map.

  assert (H : forall l : list vty,
    concat (map (fun t => concat (repeat (flatten (vc_default (C t))) (length (of_type t vs)))) l) =
    concat (concat (map (fun t => map (fun v => flatten (lookup_or_default [] v)) (of_type t vs)) l))).
  { induction l as [|t l IH]; simpl; auto. rewrite concat_app, <- IH. f_equal. f_equal.
    assert (Ht : forall v, In v (of_type t vs) -> v_ty v = t) by (intros v Hv; apply of_type_ty in Hv; tauto).
    revert Ht. generalize (of_type t vs). induction l0 as [|v r IHr]; simpl; intros Ht; auto.
    rewrite IHr by auto. unfold SpecAssign.lookup_or_default; simpl. rewrite Ht; auto. }
  apply H.
Qed.

Lemma defaults_eq_partial vs : NoDup vs -> vs <> [] ->
  make_from_defaults C vs = make_from_partial_dict C vs [].
Proof.
  intros ND Hne. unfold make_from_defaults.
  rewrite (traverse_all _ (fun t => concat (repeat (flatten (vc_default (C t))) (length (of_type t vs))))).
  2:{ intros t Ht. rewrite lay_types in Ht by auto. apply (proj1 (firsts_in _ _)) in Ht.
      unfold dict_getE. rewrite lay_tcount by auto. rewrite (proj2 (mem_in _ _)); auto. }
  cbn [bind]. rewrite lay_types by auto. rewrite concatenate_ok.
  2:{ intros E. apply map_eq_nil in E. destruct vs as [|v r]; auto.
      assert (Hin : In (v_ty v) (firsts (map v_ty (v :: r)))) by (apply firsts_in; left; auto).
      rewrite E in Hin; destruct Hin. }
  cbn [bind]. rewrite defaults_storage.
  unfold make_from_partial_dict. rewrite lay_vars by auto. rewrite concatenate_ok.
  2:{ intros E. apply map_eq_nil in E. apply (order_nonempty vs Hne E). }
  reflexivity.
Qed.

(* ---- set_value ---- *)
Lemma set_value_ok vs a v x : wf_assign vs false a -> In v vs -> value_ok (C (v_ty v)) x ->
  exists a', set_value C a v x = Ok a' /\ wf_assign vs false a' /\ as_layout a' = as_layout a /\
    block (as_layout a) (as_storage a') v = flatten x /\
    (forall w, In w vs -> w <> v -> block (as_layout a) (as_storage a') w = block (as_layout a) (as_storage a) w).
Proof.
  intros Hwf Hv Hx. pose proof Hwf as (ND & HL & Hs). unfold set_value, dict_getE.
  pose proof Hv as Hv2. apply (lay_index_mem C vs false ND) in Hv2. destruct Hv2 as (i & Hi).
  rewrite HL, Hi. simpl.
  destruct (at_set_ok (as_storage a) i (i + vpdim C v) (flatten x)) as (st & E & Hl & Hsl & Hout).
  - lia.
  - rewrite Hs, HL. apply (lay_bound C vs false ND v i); auto.
  - rewrite (flatten_length (C (v_ty v))); auto. unfold vpdim. lia.
  - rewrite E; simpl. eexists; split; [reflexivity|]. simpl.
    split; [split; [auto|]; split; simpl; congruence|]. split; auto. split.
    + unfold SpecAssign.block. rewrite Hi, lay_local by auto. exact Hsl.
    + intros w Hw Hn. eapply block_other; eauto.
Qed.

Lemma set_value_unknown vs local a v x : wf_assign vs local a -> ~ In v vs -> set_value C a v x = Err KeyError.
Proof.
  intros (ND & HL & Hs) Hv. unfold set_value, dict_getE. rewrite HL.
  destruct (dict_get (l_index (make_layout C vs local)) v) eqn:E; auto.
  exfalso; apply Hv. apply (lay_index_mem C vs local ND). eauto.
Qed.

Lemma set_get vs a v x : wf_assign vs false a -> In v vs -> value_ok (C (v_ty v)) x ->
  exists a', set_value C a v x = Ok a' /\ wf_assign vs false a' /\ as_layout a' = as_layout a /\
    get_value C a' v = Ok x /\ forall w, w <> v -> get_value C a' w = get_value C a w.
Proof.
  intros Hwf Hv Hx. destruct (set_value_ok vs a v x Hwf Hv Hx) as (a' & E & Hwf' & HL & Hb & Ho).
  exists a'. repeat split; auto; try apply Hwf'.
  - rewrite (get_value_block vs) by auto. rewrite HL, Hb. apply unflatten_flatten; auto.
  - intros w Hn. destruct (in_dec eqb_dec w vs) as [Hw|Hw].
    + rewrite !(get_value_block vs) by auto. rewrite HL, Ho by auto. auto.
    + rewrite !(get_value_foreign vs false) by auto. auto.
Qed.

Lemma set_set vs a v x y a1 : wf_assign vs false a -> In v vs ->
  value_ok (C (v_ty v)) x -> value_ok (C (v_ty v)) y ->
  set_value C a v x = Ok a1 -> set_value C a1 v y = set_value C a v y.
Proof.
  intros Hwf Hv Hx Hy E1.
  destruct (set_get vs a v x Hwf Hv Hx) as (a1' & E1' & Hwf1 & HL1 & Hv1 & Ho1).
  assert (a1' = a1) by congruence; subst a1'.
  destruct (set_get vs a1 v y Hwf1 Hv Hy) as (a2 & E2 & Hwf2 & HL2 & Hv2 & Ho2).
  destruct (set_get vs a v y Hwf Hv Hy) as (a3 & E3 & Hwf3 & HL3 & Hv3 & Ho3).
  rewrite E2, E3. f_equal. apply (values_ext vs); auto. intros w Hw.
  destruct (eqb_dec w v) as [->|Hn]; [congruence|]. rewrite Ho2, Ho1, Ho3; auto.
Qed.

Lemma set_same vs a v x : wf_assign vs false a -> In v vs -> get_value C a v = Ok x -> set_value C a v x = Ok a.
Proof.
  intros Hwf Hv Hx. destruct (get_value_ok vs a v Hwf Hv) as (x' & E & Hok & _).
  assert (x' = x) by congruence; subst x'.
  destruct (set_get vs a v x Hwf Hv Hok) as (a1 & E1 & Hwf1 & HL1 & Hv1 & Ho1).
  rewrite E1. f_equal. apply (values_ext vs); auto. intros w Hw.
  destruct (eqb_dec w v) as [->|Hn]; [congruence|]. auto.
Qed.

(* ---- dict round trip ---- *)
Lemma firsts_types_order vs : firsts (map v_ty (order vs)) = firsts (map v_ty vs).
Proof.
  unfold order.
  assert (H : forall ts, NoDup ts -> (forall t, In t ts -> of_type t vs <> []) ->
    firsts (map v_ty (flat_map (fun t => of_type t vs) ts)) = ts).
  { induction ts as [|t ts IH]; intros ND Hne; simpl; auto. inversion ND; subst.
    rewrite map_app.
    assert (Hall : forall v, In v (of_type t vs) -> v_ty v = t) by (intros v Hv; apply of_type_ty in Hv; tauto).
    assert (Hne0 : of_type t vs <> []) by (apply Hne; left; auto).
    assert (Hgen : forall l rest, l <> [] -> (forall v, In v l -> v_ty v = t) -> ~ In t rest ->
       firsts (map v_ty l ++ rest) = t :: firsts rest).
    { induction l as [|v l IHl]; intros rest Hl Hty Hrest; [congruence|]. simpl.
      rewrite (Hty v) by (left; auto). f_equal.
      destruct l as [|v2 l].
      - simpl. apply filter_all_true. intros y Hy. apply (proj1 (firsts_in _ _)) in Hy.
        destruct (Nat.eqb y t) eqn:E; auto. apply Nat.eqb_eq in E; subst; tauto.
      - rewrite IHl; [|discriminate | intros; apply Hty; right; auto | auto].
        simpl. rewrite Nat.eqb_refl; simpl. apply filter_all_true.
        intros y Hy. apply (proj1 (firsts_in _ _)) in Hy.
        destruct (Nat.eqb y t) eqn:E; auto. apply Nat.eqb_eq in E; subst; tauto. }
    rewrite Hgen; auto.
    - f_equal. apply IH; auto. intros; apply Hne; right; auto.
    - intros Hin. apply in_map_iff in Hin. destruct Hin as (v & Hv & Hin).
      apply in_flat_map in Hin. destruct Hin as (t' & Ht' & Hin). apply of_type_ty in Hin.
      destruct Hin as [_ E]. subst. auto. }
  apply H; [apply firsts_nodup|]. intros t Ht. apply (proj1 (firsts_in _ _)) in Ht. apply in_map_iff in Ht.
  destruct Ht as (v & <- & Hv). intros E.
  assert (Hin : In v (of_type (v_ty v) vs)) by (apply of_type_ty; auto). rewrite E in Hin; destruct Hin.
Qed.
End Assign.
