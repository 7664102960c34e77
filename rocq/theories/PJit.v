(* Calls of solve that share a compiled function share the CHOLMOD analysis *)
From Coq Require Import List Arith Bool Lia.
From Verif Require Import Num Py Arr PBase MLayout SpecLayout SpecTree PLayout PTree MAssign MNoise MSparse
  MFactor MGraph MMisc MJit SpecAssign SpecGraph SpecJit PAssign PAssign2 PStack PGraph.
Import ListNotations.

(* ---- equality of keys ---- *)
Lemma list_eqb_F2 {A} (e : A -> A -> bool) (P : A -> Prop) (R : A -> A -> Prop) :
  (forall x y, P x -> P y -> (e x y = true <-> R x y)) ->
  forall l1 l2, Forall P l1 -> Forall P l2 -> (list_eqb e l1 l2 = true <-> Forall2 R l1 l2).
Proof.
  intros He. induction l1 as [|x r IH]; intros [|y r2] H1 H2; simpl; split; intros H; try (inversion H; fail); auto; try discriminate.
  - apply andb_true_iff in H. inversion H1; subst; inversion H2; subst. constructor; [apply He; tauto | apply IH; tauto].
  - inversion H; subst. inversion H1; subst; inversion H2; subst. apply andb_true_iff. split; [apply He; auto | apply IH; auto].
Qed.

Section Key.
Context {T : Type} {N : Num T}.
Variable E : env T.

Lemma stack_key_ok (s s' : fstack T) : layout_nodup (fs_layout s) -> layout_nodup (fs_layout s') ->
  (skey_eqb (stack_key s) (stack_key s') = true <-> stacks_alike s s').
Proof.
  intros H H'. unfold skey_eqb, stack_key, stacks_alike. cbn [sk_num sk_cls sk_types sk_tree sk_shapes sk_idx sk_layout].
  rewrite !andb_true_iff, !Nat.eqb_eq, (list_eqb_ok Nat.eqb Nat.eqb_eq), treedef_eqb_ok.
  rewrite (list_eqb_ok shape_eqb shape_eqb_ok).
  rewrite (list_eqb_ok (fun x y : nat * nat => Nat.eqb (fst x) (fst y) && Nat.eqb (snd x) (snd y))).
  2:{ intros [a b] [c d]. cbn [fst snd]. rewrite andb_true_iff, !Nat.eqb_eq. split; [intros [-> ->]; auto | intros [= -> ->]; auto]. }
  rewrite (layout_eqb_ok _ _ H H'). split.
  - intros ((((((H1 & H2) & H3) & H4) & H5) & H6) & H7). injection H4 as H4 H8. tauto.
  - intros (H1 & H2 & H3 & H4 & H5 & H6 & H7 & H8). rewrite H4, H5. tauto.
Qed.

Definition call_nodup (c : call T) : Prop :=
  Forall (fun s => layout_nodup (fs_layout s)) (g_stacks (cl_graph c)) /\
  layout_nodup (g_layout (cl_graph c)) /\ layout_nodup (g_local_layout (cl_graph c)) /\ layout_nodup (as_layout (cl_init c)).

Lemma list_eqb_map {A B} (e : B -> B -> bool) (f : A -> B) l1 : forall l2,
  list_eqb e (map f l1) (map f l2) = list_eqb (fun x y => e (f x) (f y)) l1 l2.
Proof. induction l1 as [|x r IH]; intros [|y r2]; simpl; auto. rewrite IH. auto. Qed.

Lemma call_key_ok (c c' : call T) : call_nodup c -> call_nodup c' ->
  (jkey_eqb (call_key c) (call_key c') = true <-> calls_alike c c').
Proof.
  intros (H1 & H2 & H3 & H4) (K1 & K2 & K3 & K4). unfold jkey_eqb, call_key, calls_alike, graphs_alike.
  cbn [jk_solver jk_stacks jk_nnz jk_layout jk_local jk_rdim jk_size jk_init fst snd].
  rewrite !andb_true_iff, !Nat.eqb_eq.
  rewrite list_eqb_map, (list_eqb_F2 _ (fun s => layout_nodup (fs_layout s)) stacks_alike) by (auto using stack_key_ok).
  rewrite (layout_eqb_ok _ _ H2 K2), (layout_eqb_ok _ _ H3 K3), (layout_eqb_ok _ _ H4 K4). tauto.
Qed.

Lemma stacks_alike_refl (s : fstack T) : stacks_alike s s.
Proof. unfold stacks_alike. repeat split; auto using same_layout_refl. Qed.
Lemma stacks_alike_trans (a b c : fstack T) : stacks_alike a b -> stacks_alike b c -> stacks_alike a c.
Proof.
  intros (A1 & A2 & A3 & A4 & A5 & A6 & A7 & A8) (B1 & B2 & B3 & B4 & B5 & B6 & B7 & B8).
  unfold stacks_alike. repeat split; try congruence; eapply same_layout_trans; eauto.
Qed.
Lemma F2_refl {A} (R : A -> A -> Prop) : (forall x, R x x) -> forall l, Forall2 R l l.
Proof. intros H. induction l; auto. Qed.
Lemma F2_trans {A} (R : A -> A -> Prop) : (forall x y z, R x y -> R y z -> R x z) ->
  forall a b c, Forall2 R a b -> Forall2 R b c -> Forall2 R a c.
Proof.
  intros H a b c H1. revert c. induction H1; intros c H2; inversion H2; subst; constructor; eauto.
Qed.
Lemma calls_alike_refl (c : call T) : calls_alike c c.
Proof. unfold calls_alike, graphs_alike. repeat split; auto using same_layout_refl. apply F2_refl. apply stacks_alike_refl. Qed.
Lemma calls_alike_trans (a b c : call T) : calls_alike a b -> calls_alike b c -> calls_alike a c.
Proof.
  intros (A1 & (A2 & A3 & A4 & A5 & A6 & A7) & A8 & A9) (B1 & (B2 & B3 & B4 & B5 & B6 & B7) & B8 & B9).
  unfold calls_alike, graphs_alike. repeat split; try congruence; try (eapply same_layout_trans; eauto).
  eapply F2_trans; eauto. apply stacks_alike_trans.
Qed.

(* ---- the run ---- *)
Definition like (c d : call T) : bool := jkey_eqb (call_key d) (call_key c).

Record jinv (pre : list (call T)) (s : jstate) : Prop := {
  ji_none : forall c, call_nodup c -> find (fun ka => jkey_eqb (fst ka) (call_key c)) (j_traces s) = None ->
    find (like c) pre = None;
  ji_some : forall c ka, call_nodup c -> find (fun ka => jkey_eqb (fst ka) (call_key c)) (j_traces s) = Some ka ->
    exists d, find (like c) pre = Some d /\ dict_get (j_cache s) (snd ka) = Some (call_pattern d);
  ji_fresh : forall n, length (j_traces s) <= n -> dict_get (j_cache s) n = None;
  ji_low : forall ka, In ka (j_traces s) -> snd ka < length (j_traces s);
}.

Lemma find_app {A} (p : A -> bool) l r : find p (l ++ r) = match find p l with Some x => Some x | None => find p r end.
Proof. induction l as [|a l IH]; simpl; auto. destruct (p a); auto. Qed.

Lemma jit_step pre s c : Forall call_nodup pre -> call_nodup c -> jinv pre s ->
  exists d s', jit_call c s = (Some (call_pattern d), s') /\ find (like c) (pre ++ [c]) = Some d /\ jinv (pre ++ [c]) s'.
Proof.
  intros Hp Hc I. unfold jit_call.
  assert (Hself : like c c = true) by (apply call_key_ok; auto using calls_alike_refl).
  destruct (find (fun ka => jkey_eqb (fst ka) (call_key c)) (j_traces s)) as [[k a]|] eqn:Ef.
  - destruct (ji_some _ _ I c _ Hc Ef) as (d & Hd & Ha). cbn [snd] in Ha |- *. cbn [cstep]. rewrite Ha.
    exists d, s. split; [destruct s; auto|]. rewrite find_app, Hd. split; auto.
    constructor; [| | apply I | apply I].
    + intros c' Hc' Hn. rewrite find_app, (ji_none _ _ I c' Hc' Hn). cbn [find].
      destruct (like c' c) eqn:El; auto. exfalso.
      apply (find_some _ _) in Hd. destruct Hd as [Hin Hdc].
      assert (Hdn : call_nodup d) by (rewrite Forall_forall in Hp; auto).
      pose proof (ji_none _ _ I c' Hc' Hn) as Hnone. apply (find_none _ _) with (x := d) in Hnone; auto.
      unfold like in *. rewrite call_key_ok in Hdc, El by auto.
      assert (calls_alike d c') by (eapply calls_alike_trans; eauto).
      apply (call_key_ok d c') in H; auto. congruence.
    + intros c' ka Hc' Hs. destruct (ji_some _ _ I c' ka Hc' Hs) as (d' & Hd' & Ha'). exists d'. rewrite find_app, Hd'. auto.
  - cbn [cstep]. rewrite (ji_fresh _ _ I (length (j_traces s))) by auto.
    exists c, (mkJstate (j_traces s ++ [(call_key c, length (j_traces s))]) (dict_set (j_cache s) (length (j_traces s)) (call_pattern c))).
    split; auto. rewrite find_app, (ji_none _ _ I c Hc Ef). cbn [find]. rewrite Hself. split; auto.
    constructor; cbn [j_traces j_cache].
    + intros c' Hc' Hn. rewrite find_app in Hn. destruct (find _ (j_traces s)) eqn:Ef' in Hn; [discriminate|].
      rewrite find_app, (ji_none _ _ I c' Hc' Ef'). cbn [find fst] in Hn |- *. unfold like at 1.
      destruct (jkey_eqb (call_key c) (call_key c')); [discriminate | auto].
    + intros c' ka Hc' Hs. rewrite find_app in Hs. rewrite find_app.
      destruct (find (fun ka => jkey_eqb (fst ka) (call_key c')) (j_traces s)) as [ka'|] eqn:Ef'.
      * injection Hs as ->. destruct (ji_some _ _ I c' ka Hc' Ef') as (d & Hd & Ha). exists d. rewrite Hd. split; auto.
        rewrite dict_get_set_other; auto. apply find_some in Ef'. destruct Ef' as [Hin _]. apply (ji_low _ _ I) in Hin. lia.
      * rewrite (ji_none _ _ I c' Hc' Ef'). cbn [find fst] in Hs |- *. unfold like at 1.
        destruct (jkey_eqb (call_key c) (call_key c')); [|discriminate]. injection Hs as <-. exists c. split; auto.
        cbn [snd]. apply dict_get_set_same.
    + intros n Hn. rewrite app_length in Hn. cbn [length] in Hn. rewrite dict_get_set_other by lia. apply (ji_fresh _ _ I). lia.
    + intros ka Hin. rewrite app_length. cbn [length]. apply in_app_or in Hin. destruct Hin as [Hin|[<-|[]]].
      * apply (ji_low _ _ I) in Hin. lia.
      * cbn [snd]. lia.
Qed.

Lemma jit_run_gen cs : forall pre s i c, Forall call_nodup pre -> Forall call_nodup cs -> jinv pre s ->
  nth_error cs i = Some c ->
  exists d, nth_error (fst (jit_run cs s)) i = Some (Some (call_pattern d)) /\
    find (like c) (pre ++ firstn (S i) cs) = Some d.
Proof.
  induction cs as [|c0 cs IH]; intros pre s i c Hp Hc I Hi; [destruct i; discriminate|].
  inversion Hc; subst. destruct (jit_step pre s c0) as (d0 & s' & E0 & F0 & I'); auto.
  cbn [jit_run]. rewrite E0. destruct (jit_run cs s') as [ps s''] eqn:Er. cbn [fst].
  destruct i as [|i]; cbn [nth_error] in *.
  - injection Hi as <-. exists d0. auto.
  - destruct (IH (pre ++ [c0]) s' i c) as (d & Hd & Fd); auto.
    { apply Forall_app; auto. }
    rewrite Er in Hd. exists d. split; auto. rewrite <- app_assoc in Fd. exact Fd.
Qed.

Lemma find_first {A} (p : A -> bool) l x : find p l = Some x ->
  exists j, nth_error l j = Some x /\ p x = true /\ forall k y, k < j -> nth_error l k = Some y -> p y = false.
Proof.
  induction l as [|a l IH]; simpl; [discriminate|]. destruct (p a) eqn:Ea.
  - intros [= <-]. exists 0. split; auto. split; auto. intros; lia.
  - intros H. destruct (IH H) as (j & H1 & H2 & H3). exists (S j). split; auto. split; auto.
    intros [|k] y Hk Hy; simpl in Hy; [congruence|]. apply (H3 k); auto. lia.
Qed.

Lemma call_ok_nodup c : call_ok E c -> call_nodup c.
Proof.
  intros (fs & vs & Hok & Hg & Ha).
  assert (Hig : is_graph E fs (cl_graph c)).
  { destruct (graph_make_ok E fs Hok) as [Hyes Hno].
    destruct (existsb (fun f => match f_vars f with [] => false | _ => true end) fs) eqn:Ex.
    - apply existsb_exists in Ex. destruct Ex as (f & Hf & Hv).
      destruct Hyes as (g & Eg & Hig); [exists f; split; auto; intros Hz; rewrite Hz in Hv; discriminate|].
      replace (cl_graph c) with g by congruence. auto.
    - rewrite Hno in Hg; [discriminate|]. intros f Hf. destruct (f_vars f) eqn:Ev; auto. exfalso.
      assert (Ht : existsb (fun f => match f_vars f with [] => false | _ => true end) fs = true).
      { apply existsb_exists. exists f. rewrite Ev. auto. }
      congruence. }
  assert (HL : forall b, layout_nodup (graph_layout E fs b)) by (intros b; apply make_layout_nodup, mentioned_nodup).
  split; [|split; [|split]].
  - pose proof (ig_stacks _ _ _ Hig) as H. clear Hg. induction H as [|gfs s l l' Hs Hl IHl]; constructor; auto.
    rewrite (is_lay _ _ _ _ Hs). auto.
  - rewrite (ig_layout _ _ _ Hig). auto.
  - rewrite (ig_local _ _ _ Hig). auto.
  - destruct Ha as (ND & HLa & _). rewrite HLa. apply make_layout_nodup; auto.
Qed.

Lemma firstn_nth {A} (l : list A) n k x : nth_error (firstn n l) k = Some x -> k < n /\ nth_error l k = Some x.
Proof.
  revert n k; induction l as [|a l IH]; intros [|n] [|k]; simpl; try discriminate; intros H.
  - split; [lia | auto].
  - apply IH in H. split; [lia | tauto].
Qed.
Lemma nth_firstn {A} (l : list A) n k : k < n -> nth_error (firstn n l) k = nth_error l k.
Proof.
  revert n k; induction l as [|a l IH]; intros [|n] [|k] H; simpl; auto; try lia. apply IH. lia.
Qed.

Theorem jit_analysis : forall cs, (forall c, In c cs -> call_ok E c) ->
  forall i c, nth_error cs i = Some c ->
  exists j d, j <= i /\ nth_error cs j = Some d /\ calls_alike d c /\
    (forall k e, k < j -> nth_error cs k = Some e -> ~ calls_alike e c) /\
    nth_error (fst (jit_run cs jit0)) i = Some (Some (call_pattern d)).
Proof.
  intros cs Hok i c Hi.
  assert (Hn : Forall call_nodup cs) by (rewrite Forall_forall; intros x Hx; apply call_ok_nodup; auto).
  destruct (jit_run_gen cs [] jit0 i c) as (d & Hd & Fd); auto.
  { constructor; cbn; auto; try discriminate. intros ka []. }
  cbn [app] in Fd. apply find_first in Fd. destruct Fd as (j & Hj & Hl & Hmin).
  apply firstn_nth in Hj. destruct Hj as [Hlt Hj].
  pose proof (proj1 (Forall_forall _ _) Hn) as Hn'.
  assert (Hcn : call_nodup c) by (apply Hn'; eapply nth_error_In; eauto).
  exists j, d. split; [lia|]. split; auto. split; [|split; auto].
  - apply call_key_ok; auto. apply Hn'. eapply nth_error_In; eauto.
  - intros k e Hk He Ha. assert (Hf : like c e = false).
    { apply (Hmin k); auto. rewrite nth_firstn by lia. auto. }
    apply call_key_ok in Ha; auto; [|apply Hn'; eapply nth_error_In; eauto]. unfold like in Hf. congruence.
Qed.

Theorem jit_objects cs (obj : call T -> nat) : forall s,
  jit_run (map (fun c => with_object (obj c) c) cs) s = jit_run cs s.
Proof.
  induction cs as [|c cs IH]; intros s; cbn [map jit_run]; auto.
  change (jit_call (with_object (obj c) c) s) with (jit_call c s).
  destruct (jit_call c s) as [p s']. rewrite IH. auto.
Qed.
End Key.
