(* Bundled lemmas and concrete instances for the assignment theorems. *)
From Coq Require Import List Arith Bool ZArith Lia.
From Verif Require Import Num Py Arr PBase MLayout SpecLayout SpecTree MAssign SpecAssign PLayout PTree
  PAssign PAssign2 PAssign3 PVec Ex NumF32.
Import ListNotations.
Local Open Scope nat_scope.

Section Bundles.
Context {T : Type} {N : Num T}.
Variable C : cenv (T := T).
Hypothesis CO : classes_ok C.

Lemma construction_values :
  (forall d : dict var (pytree T), NoDup (map fst d) -> d <> [] ->
     (forall v x, In (v, x) d -> value_ok (C (v_ty v)) x) ->
     exists a, make_from_dict C d = Ok a /\ wf_assign C (map fst d) false a /\
       (forall v x, In (v, x) d -> get_value C a v = Ok x) /\
       (forall v, ~ In v (map fst d) -> get_value C a v = Err KeyError) /\
       (exists d', as_dict C a = Ok d' /\ forall v x, In (v, x) d' <-> In (v, x) d)) /\
  (forall vs (d : dict var (pytree T)), NoDup vs -> vs <> [] ->
     (forall v x, In v vs -> dict_get d v = Some x -> value_ok (C (v_ty v)) x) ->
     exists a, make_from_partial_dict C vs d = Ok a /\ wf_assign C vs false a /\
       (forall v, In v vs -> get_value C a v = Ok (lookup_or_default C d v)) /\
       (forall v, ~ In v vs -> get_value C a v = Err KeyError)).
Proof.
  split.
  - intros d ND Hne Hd. destruct (dict_values C CO d ND Hne Hd) as (a & E & Hwf & Hv & Hf).
    exists a. split; auto. split; auto. split; auto. split; auto.
    destruct (as_dict_ok C CO _ a Hwf) as (d' & Ed & _ & Hd'). exists d'. split; auto.
    intros v x. rewrite Hd'. split.
    + intros [Hin Hx]. apply in_map_iff in Hin. destruct Hin as ([w y] & Ew & Hin). simpl in Ew; subst w.
      rewrite (Hv _ _ Hin) in Hx. injection Hx as <-. auto.
    + intros Hin. split; [apply in_map_iff; exists (v, x); auto | auto].
  - intros vs d ND Hne Hd. exact (partial_values C CO vs d ND Hne Hd).
Qed.

Lemma defaults_values vs : NoDup vs -> vs <> [] ->
  make_from_defaults C vs = make_from_partial_dict C vs [] /\
  exists a, make_from_defaults C vs = Ok a /\ wf_assign C vs false a /\
    forall v, In v vs -> get_value C a v = Ok (vc_default (C (v_ty v))).
Proof.
  intros ND Hne. pose proof (defaults_eq_partial C vs ND Hne) as E. split; auto.
  destruct (partial_values C CO vs [] ND Hne) as (a & Ea & Hwf & Hv & _); [intros v x _; discriminate|].
  exists a. rewrite E. repeat split; auto; apply Hwf.
Qed.

Lemma lens_laws vs a : wf_assign C vs false a ->
  (forall v x, In v vs -> value_ok (C (v_ty v)) x ->
     exists a', set_value C a v x = Ok a' /\ wf_assign C vs false a' /\ as_layout a' = as_layout a /\
       get_value C a' v = Ok x /\ (forall w, w <> v -> get_value C a' w = get_value C a w)) /\
  (forall v x y a', In v vs -> value_ok (C (v_ty v)) x -> value_ok (C (v_ty v)) y ->
     set_value C a v x = Ok a' -> set_value C a' v y = set_value C a v y) /\
  (forall v x, In v vs -> get_value C a v = Ok x -> set_value C a v x = Ok a) /\
  (forall v x, ~ In v vs -> set_value C a v x = Err KeyError).
Proof.
  intros Hwf. repeat split.
  - intros v x. apply (set_get C CO); auto.
  - intros v x y a' Hv Hx Hy. exact (set_set C CO vs a v x y a' Hwf Hv Hx Hy).
  - intros v x. apply (set_same C CO vs); auto.
  - intros v x. apply (set_value_unknown C vs false); auto.
Qed.

Lemma update_laws :
  (forall vs vs' a, wf_assign C vs false a -> NoDup vs' -> (forall v, In v vs <-> In v vs') ->
     exists a', update_storage_layout C a (make_layout C vs' false) = Ok a' /\
       same_layout (as_layout a') (make_layout C vs' false) /\
       forall v, get_value C a' v = get_value C a v) /\
  (forall vs vs' local a, wf_assign C vs local a -> NoDup vs' -> (forall v, In v vs <-> In v vs') ->
     exists a', update_storage_layout C a (make_layout C vs' local) = Ok a' /\
       same_layout (as_layout a') (make_layout C vs' local) /\
       forall v, In v vs' ->
         block C (make_layout C vs' local) (as_storage a') v = block C (as_layout a) (as_storage a) v) /\
  (forall vs vs' local a a' a'', wf_assign C vs local a -> NoDup vs' ->
     update_storage_layout C a (make_layout C vs' local) = Ok a' ->
     update_storage_layout C a' (make_layout C vs local) = Ok a'' -> as_storage a'' = as_storage a) /\
  (forall vs vs' local local' a, wf_assign C vs local a -> NoDup vs' ->
     l_dim (as_layout a) <> l_dim (make_layout C vs' local') \/ local <> local' \/ ~ (forall v, In v vs <-> In v vs') ->
     update_storage_layout C a (make_layout C vs' local') = Err AssertionError).
Proof.
  split; [|split; [|split]].
  - intros vs vs' a. apply update_values; auto.
  - intros vs vs' local a Hwf N' Hin.
    destruct (update_ok C vs vs' local a Hwf N' Hin) as (a' & E & HL & _ & _ & Hb). eauto.
  - intros vs vs' local a a' a''. apply update_round_trip; auto.
  - intros vs vs' local local' a (ND & HL & Hs) N' H. apply update_err. rewrite HL in *.
    destruct H as [H|[H|H]]; auto.
    + right; left. rewrite !lay_local by auto. auto.
    + right; right. split; [apply make_layout_nodup; auto|]. split; [apply make_layout_nodup; auto|].
      intros Hc. apply H. intros v. specialize (Hc v). rewrite !lay_vars, !order_in in Hc by auto. auto.
Qed.

Lemma duplicates_laws :
  (forall vs (d : dict var (pytree T)), vs <> [] ->
     (forall v x, In v vs -> dict_get d v = Some x -> value_ok (C (v_ty v)) x) ->
     (make_from_partial_dict C vs d = Err AssertionError <-> repeated C vs) /\
     (~ repeated C vs -> exists a, make_from_partial_dict C vs d = Ok a)) /\
  (forall vs, repeated C vs ->
     exists a, make_from_defaults C vs = Ok a /\
       total (vpdim C) (get_variables (as_layout a)) < length (as_storage a) /\
       forall vs', NoDup vs' -> update_storage_layout C a (make_layout C vs' false) = Err AssertionError).
Proof. split; intros; [apply partial_repeated | apply defaults_repeated]; auto. Qed.
End Bundles.

Lemma retract_per_variable (T : Type) (N : Num T) (C : cenv (T := T)) vs vs' a delta (y : var -> pytree T) : classes_ok C ->
  wf_assign C vs false a -> wf_assign C vs' true delta ->
  (forall t, of_type t vs' = of_type t vs) ->
  (forall v, In v vs -> exists x, get_value C a v = Ok x /\
     retract (C (v_ty v)) x (block C (as_layout delta) (as_storage delta) v) = Ok (y v) /\
     value_ok (C (v_ty v)) (y v)) ->
  exists a', manifold_retract C a delta = Ok a' /\ as_layout a' = as_layout a /\
    forall v, In v vs -> get_value C a' v = Ok (y v).
Proof.
  intros CO H1 H2 H3 H4.
  destruct (retract_values C vs vs' a delta (fun v => v) y CO H1 H2) as (a' & E & HL & _ & Hv); auto.
  - intros t. rewrite map_id. auto.
  - eauto.
Qed.

(* ---- concrete instances ---- *)
#[local] Existing Instance NumF32.
Definition fz (z : Z) : f32 := lit z.
Definition ex_pose_value : pytree f32 :=
  Node 7 [leaf1 (map fz [1; 2; 3; 4]%Z); Node 3 [Leaf (mkArr [1; 2] (map fz [5; 6]%Z))]].
Definition ex_dict : dict var (pytree f32) :=
  [(va, leaf1 (map fz [7; 8]%Z)); (vb, ex_pose_value); (vc, leaf1 (map fz [9; 10]%Z))].
Definition ex_assign : assign f32 :=
  mkAssign (map fz [1; 2; 3; 4; 5; 6; 7; 8; 9; 10; 11; 12; 13; 14; 15; 16]%Z) (make_layout exC ex_vars false).
Definition ex_delta : assign f32 :=
  mkAssign (map fz [1; 2; 3; 4; 5; 6; 7; 8; 9; 10]%Z) (make_layout exC ex_vars true).

Lemma ex_classes : classes_ok (exC (N := NumF32)).
Proof. intros [|[|t]]; repeat constructor. Qed.
Lemma ex_nodup : NoDup ex_vars.
Proof. repeat constructor; simpl; intuition discriminate. Qed.
Lemma ex_pose_value_ok : value_ok (exC (N := NumF32) (v_ty vd)) ex_pose_value.
Proof. repeat split; repeat constructor. Qed.
Lemma ex_in_vd : In vd ex_vars.
Proof. simpl. auto. Qed.
Lemma ex_assign_wf : wf_assign (exC (N := NumF32)) ex_vars false ex_assign.
Proof. split; [exact ex_nodup | split; vm_compute; reflexivity]. Qed.
Lemma ex_delta_wf : wf_assign (exC (N := NumF32)) ex_vars true ex_delta.
Proof. split; [exact ex_nodup | split; vm_compute; reflexivity]. Qed.

Lemma ex_dict_ok : classes_ok (exC (N := NumF32)) /\ NoDup (map fst ex_dict) /\ ex_dict <> [] /\
  (forall v x, In (v, x) ex_dict -> value_ok (exC (N := NumF32) (v_ty v)) x) /\
  exists a, make_from_dict exC ex_dict = Ok a /\ get_value exC a vb = Ok ex_pose_value.
Proof.
  split; [exact ex_classes|]. split; [repeat constructor; simpl; intuition discriminate|].
  split; [discriminate|]. split.
  - simpl. intros v x [E|[E|[E|[]]]]; injection E as <- <-; repeat split; repeat constructor.
  - eexists; split; vm_compute; reflexivity.
Qed.
Lemma ex_defaults_ok : NoDup ex_vars /\ ex_vars <> [] /\
  exists a, make_from_defaults (exC (N := NumF32)) ex_vars = Ok a /\ length (as_storage a) = 16.
Proof.
  split; [exact ex_nodup|]. split; [discriminate|]. eexists; split; vm_compute; reflexivity.
Qed.
Lemma ex_update_ok : wf_assign (exC (N := NumF32)) ex_vars false ex_assign /\
  exists a', update_storage_layout (N := NumF32) exC ex_assign (make_layout exC [vd; vc; vb; va] false) = Ok a' /\
    as_storage a' <> as_storage ex_assign.
Proof. split; [exact ex_assign_wf|]. eexists; split; [vm_compute; reflexivity | vm_compute; discriminate]. Qed.
Lemma ex_stacked : wf_assign (exC (N := NumF32)) ex_vars false ex_assign /\ of_type 1 ex_vars = [vb; vd] /\
  exists rows, get_stacked_value exC ex_assign 1 = Ok rows /\ length rows = 2.
Proof. split; [exact ex_assign_wf|]. split; [reflexivity|]. eexists; split; vm_compute; reflexivity. Qed.
Lemma ex_retract :
  wf_assign (exC (N := NumF32)) ex_vars false ex_assign /\ wf_assign (exC (N := NumF32)) ex_vars true ex_delta /\
  exists a' x, manifold_retract (N := NumF32) exC ex_assign ex_delta = Ok a' /\
    get_value exC a' vb = Ok x /\ get_value exC ex_assign vb <> Ok x.
Proof.
  split; [exact ex_assign_wf|]. split; [exact ex_delta_wf|].
  do 2 eexists. split; [vm_compute; reflexivity|]. split; [vm_compute; reflexivity|]. vm_compute. discriminate.
Qed.
Lemma ex_repeated : repeated (exC (N := NumF32)) [va; vb; va].
Proof. exists va. vm_compute. auto. Qed.
Lemma ex_local_reads : wf_assign (exC (N := NumF32)) ex_vars true ex_delta /\
  (exists x, get_value exC ex_delta vb = Ok x) /\ get_value exC ex_delta vd = Err ValueError.
Proof. split; [exact ex_delta_wf|]. split; [eexists|]; vm_compute; reflexivity. Qed.

Lemma retract_mispairs :
  exists (C : cenv (T := f32)) vs vs' a delta a' v x y,
    classes_ok C /\ wf_assign C vs false a /\ wf_assign C vs' true delta /\
    (forall w, In w vs <-> In w vs') /\ In v vs /\
    manifold_retract (N := NumF32) C a delta = Ok a' /\
    get_value C a v = Ok x /\
    retract (N := NumF32) (C (v_ty v)) x (block C (as_layout delta) (as_storage delta) v) = Ok y /\
    get_value C a' v <> Ok y.
Proof.
  exists exC, [va; vc], [vc; va], (mkAssign (map fz [0; 0; 0; 0]%Z) (make_layout exC [va; vc] false)),
    (mkAssign (map fz [1; 1; 2; 2]%Z) (make_layout exC [vc; va] true)).
  do 2 eexists. exists (leaf1 (map fz [0; 0]%Z)), (leaf1 (map fz [2; 2]%Z)).
  split; [exact ex_classes|].
  split; [split; [repeat constructor; simpl; intuition discriminate | split; vm_compute; reflexivity]|].
  split; [split; [repeat constructor; simpl; intuition discriminate | split; vm_compute; reflexivity]|].
  split; [simpl; tauto|]. split; [left; reflexivity|].
  split; [vm_compute; reflexivity|]. split; [vm_compute; reflexivity|]. split; [vm_compute; reflexivity|].
  vm_compute. discriminate.
Qed.

Lemma scalars_dim {T} (c : vclass T) : tree_ok (vc_default c) -> scalars (vc_default c) = param_dim c.
Proof.
  intros H. rewrite (param_dim_tsize c H). unfold scalars, tsize.
  induction (leaves (vc_default c)); simpl; auto.
Qed.
Lemma plain_retraction {T} {N : Num T} (C : cenv (T := T)) vs vs' a delta : classes_ok C ->
  wf_assign C vs false a -> wf_assign C vs' true delta ->
  (forall t, of_type t vs' = of_type t vs) ->
  (forall v, In v vs -> plain_class (C (v_ty v))) ->
  exists a', manifold_retract C a delta = Ok a' /\ as_layout a' = as_layout a /\
    forall v, In v vs -> exists x y, get_value C a v = Ok x /\ get_value C a' v = Ok y /\
      let d := block C (as_layout delta) (as_storage delta) v in
      length d = scalars (vc_default (C (v_ty v))) /\ length (ravel x) = length d /\ length (ravel y) = length d /\
      forall i, i < length d -> nth i (ravel y) n0 = nadd (nth i (ravel x) n0) (nth i d n0).
Proof.
  intros CO Hwf Hwf' Hsame Hpl.
  assert (Hin : forall v, In v vs -> In v vs').
  { intros v Hv. assert (H : In v (of_type (v_ty v) vs)) by (apply filter_In; split; auto; apply Nat.eqb_refl).
    rewrite <- Hsame in H. apply filter_In in H. tauto. }
  assert (Hlen : forall v, In v vs -> length (block C (as_layout delta) (as_storage delta) v) = param_dim (C (v_ty v))).
  { intros v Hv. pose proof Hwf' as (ND & HL & Hs). rewrite HL in *. rewrite block_length; auto.
    destruct (Hpl v Hv) as [H _]. unfold vdim, tdim, local_dim. simpl. rewrite H. auto. }
  set (y := fun v => match get_value C a v with
    | Ok x => fst (unravel (vc_default (C (v_ty v))) (vadd (ravel x) (block C (as_layout delta) (as_storage delta) v)))
    | _ => vc_default (C (v_ty v)) end).
  assert (Hy : forall v, In v vs -> exists x, get_value C a v = Ok x /\ value_ok (C (v_ty v)) x /\
     retract (C (v_ty v)) x (block C (as_layout delta) (as_storage delta) v) = Ok (y v) /\
     value_ok (C (v_ty v)) (y v) /\ ravel (y v) = vadd (ravel x) (block C (as_layout delta) (as_storage delta) v)).
  { intros v Hv. destruct (get_value_ok C CO vs a v Hwf Hv) as (x & Ex & Hx & _). exists x. split; auto. split; auto.
    pose proof (flatten_length _ (CO _) _ Hx) as Hl. unfold flatten in Hl.
    assert (Hv2 : length (vadd (ravel x) (block C (as_layout delta) (as_storage delta) v)) = param_dim (C (v_ty v))).
    { rewrite vadd_length; auto. rewrite Hlen; auto. }
    destruct (unflatten_ok (C (v_ty v)) (CO _) _ Hv2) as (z & Ez & Hz & Hf).
    assert (Hyz : y v = z). { unfold y. rewrite Ex. unfold unflatten in Ez. rewrite Hv2, Nat.eqb_refl in Ez. congruence. }
    rewrite Hyz. split; [|split; auto]. unfold retract. destruct (Hpl v Hv) as [_ ->]. unfold flatten.
    rewrite Hl, Hlen, Nat.eqb_refl by auto. auto. }
  destruct (retract_values C vs vs' a delta (fun v => v) y CO Hwf Hwf') as (a' & E & HL & _ & Hv).
  { intros t. rewrite map_id. auto. }
  { intros v Hv. destruct (Hy v Hv) as (x & ? & _ & ? & ? & _). eauto. }
  exists a'. split; auto. split; auto. intros v Hin'. destruct (Hy v Hin') as (x & Ex & Hx & _ & Hyo & Hr).
  exists x, (y v). split; auto. split; auto. cbv zeta. rewrite Hlen by auto. rewrite scalars_dim by auto.
  pose proof (flatten_length _ (CO _) _ Hx) as Hl. unfold flatten in Hl. split; auto. split; auto.
  split; [apply (flatten_length _ (CO _) _ Hyo)|]. intros i Hi. rewrite Hr. unfold vadd. apply nth_zipw; [lia|rewrite Hlen; auto].
Qed.
Lemma ex_plain : plain_class (exC (N := NumF32) (v_ty va)) /\ ~ plain_class (exC (N := NumF32) (v_ty vb)) /\
  wf_assign (exC (N := NumF32)) [va; vc] false (mkAssign (map fz [0; 1; 2; 3]%Z) (make_layout exC [va; vc] false)) /\
  exists a', manifold_retract (N := NumF32) exC (mkAssign (map fz [0; 1; 2; 3]%Z) (make_layout exC [va; vc] false))
    (mkAssign (map fz [10; 20; 30; 40]%Z) (make_layout exC [va; vc] true)) = Ok a' /\ as_storage a' = map fz [10; 21; 32; 43]%Z.
Proof.
  split; [split; reflexivity|]. split; [intros [H _]; discriminate|].
  split; [split; [repeat constructor; simpl; intuition discriminate | split; vm_compute; reflexivity]|].
  eexists; split; vm_compute; reflexivity.
Qed.
