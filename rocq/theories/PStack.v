(* Stacking of arrays, trees, noise models and factors *)
From Coq Require Import List Arith Bool Lia.
From Verif Require Import Num Py Arr PBase MLayout SpecLayout SpecTree PLayout PTree MAssign MNoise MSparse
  MFactor MGraph SpecAssign SpecGraph.
Import ListNotations.

Lemma map_all_eq {A B} (f : A -> B) l y : Forall (fun x => f x = y) l -> map f l = repeat y (length l).
Proof. induction 1; simpl; congruence. Qed.

Section Stack.
Context {T : Type}.

Lemma shape_eqb_ok s1 s2 : shape_eqb s1 s2 = true <-> s1 = s2.
Proof. unfold shape_eqb. apply list_eqb_ok, Nat.eqb_eq. Qed.

Lemma arr_stack_ok (l : list (arr T)) s : l <> [] -> Forall (fun b => a_shape b = s /\ arr_ok b = true) l ->
  exists a, arr_stack l = Ok a /\ a_shape a = length l :: s /\
    forall i b, nth_error l i = Some b -> arr_index i a = b.
Proof.
  intros Hne H. destruct l as [|a r]; [congruence|].
  assert (Hs : a_shape a = s) by (inversion H; tauto).
  unfold arr_stack. rewrite Hs.
  rewrite (proj2 (forallb_forall _ (a :: r))).
  2:{ intros b Hb. rewrite Forall_forall in H. destruct (H b Hb) as [-> _]. apply shape_eqb_ok; auto. }
  eexists; split; [reflexivity|]. split; [reflexivity|].
  intros i b Hb. unfold arr_index. cbn [a_shape a_data].
  assert (Hu : Forall (fun d => length d = size s) (map a_data (a :: r))).
  { rewrite Forall_map. eapply Forall_impl; [|exact H]. intros x [Hx Hok]. unfold arr_ok in Hok.
    apply Nat.eqb_eq in Hok. congruence. }
  assert (Hi : i < length (map a_data (a :: r))) by (rewrite map_length; apply nth_error_Some; congruence).
  pose proof (slice_concat_block (size s) _ i Hu Hi) as Hbk.
  rewrite (map_nth_error _ _ _ Hb) in Hbk. apply (f_equal (fun o => match o with Some x => x | None => [] end)) in Hbk. cbv beta iota in Hbk. rewrite <- Hbk.
  rewrite Forall_forall in H. destruct (H b (nth_error_In _ _ Hb)) as [<- _]. destruct b; auto.
Qed.

(* trees *)
Fixpoint stack_children (cs : list (pytree T)) (css : list (list (pytree T))) : result (list (pytree T)) :=
  match cs with
  | [] => Ok []
  | c :: cs' => x <- tree_stack c (map (hd c) css) ;; xs <- stack_children cs' (map (@tl _) css) ;; Ok (x :: xs)
  end.
Lemma tree_stack_node g cs ts : tree_stack (Node g cs) ts =
  (css <- traverse (as_node g (length cs)) ts ;; r <- stack_children cs css ;; Ok (Node g r)).
Proof. reflexivity. Qed.

Lemma tree_stack_ok (h : pytree T) : forall ts : list (pytree T), ts <> [] -> Forall (fun t => same_shape h t /\ tree_ok t) ts ->
  exists t : pytree T, tree_stack h ts = Ok t /\ forall i x, nth_error ts i = Some x -> tree_index i t = x.
Proof.
  induction h as [a|g cs IH] using pytree_ind'; intros ts Hne H.
  - assert (Hl : exists l, traverse as_leaf ts = Ok l /\ ts = map Leaf l /\ Forall (fun b => a_shape b = a_shape a /\ arr_ok b = true) l).
    { clear Hne. induction H as [|t r [H1 H2] Hr IHr]; [exists []; auto|].
      destruct IHr as (l & El & -> & Hl). destruct t as [b|]; [|destruct H1; discriminate].
      exists (b :: l). simpl. rewrite El. simpl. split; auto. split; auto. constructor; auto.
      destruct H1 as [_ H1]. simpl in H1. injection H1 as H1. inversion H2; auto. }
    destruct Hl as (l & El & -> & Hl).
    destruct (arr_stack_ok l (a_shape a)) as (st & Est & _ & Hi); auto; [intros ->; auto|].
    exists (Leaf st). simpl. rewrite El. simpl. rewrite Est. simpl. split; auto.
    intros i x Hx. rewrite nth_error_map in Hx. destruct (nth_error l i) eqn:E; [|discriminate].
    simpl in Hx. injection Hx as <-. rewrite (Hi _ _ E). auto.
  - rewrite tree_stack_node.
    assert (Hn : exists css, traverse (as_node g (length cs)) ts = Ok css /\ ts = map (Node g) css /\
      Forall (fun ds => Forall2 same_shape cs ds /\ Forall tree_ok ds) css).
    { clear Hne IH. induction H as [|t r [H1 H2] Hr IHr]; [exists []; auto|].
      destruct IHr as (css & Ec & -> & Hc). apply same_shape_node in H1. destruct H1 as (ds & -> & Hds).
      exists (ds :: css). simpl. rewrite Nat.eqb_refl, <- (Forall2_len _ _ _ Hds), Nat.eqb_refl. simpl.
      rewrite Ec. simpl. split; auto. split; auto. constructor; auto. split; auto. apply tree_ok_node in H2; auto. }
    destruct Hn as (css & Ec & -> & Hc). rewrite Ec. cbn [bind].
    assert (Hcne : css <> []) by (intros ->; auto).
    assert (Hst : exists r, stack_children cs css = Ok r /\
      forall i ds, nth_error css i = Some ds -> map (tree_index i) r = ds).
    { clear Ec H Hne. revert css Hc Hcne. induction IH as [|c cs Hc0 Hcs IHcs]; intros css Hc Hcne; simpl.
      - exists []. split; auto. intros i ds Hi. apply nth_error_In in Hi. rewrite Forall_forall in Hc.
        destruct (Hc _ Hi) as [H _]. inversion H; auto.
      - destruct (Hc0 (map (hd c) css)) as (x & Ex & Hx).
        + intros E; apply map_eq_nil in E; auto.
        + rewrite Forall_map. eapply Forall_impl; [|exact Hc]. intros ds [H1 H2].
          inversion H1; subst; simpl. inversion H2; auto.
        + destruct (IHcs (map (@tl _) css)) as (r & Er & Hr).
          * rewrite Forall_map. eapply Forall_impl; [|exact Hc]. intros ds [H1 H2].
            inversion H1; subst; simpl. inversion H2; auto.
          * intros E; apply map_eq_nil in E; auto.
          * rewrite Ex. cbn [bind]. rewrite Er. cbn [bind]. exists (x :: r). split; auto.
            intros i ds Hi. pose proof (nth_error_In _ _ Hi) as Hin. rewrite Forall_forall in Hc.
            destruct (Hc _ Hin) as [H1 _]. inversion H1; subst. simpl.
            rewrite (Hx i y) by (rewrite (map_nth_error _ _ _ Hi); auto).
            rewrite (Hr i l') by (rewrite (map_nth_error _ _ _ Hi); auto). auto. }
    destruct Hst as (r & Er & Hr). rewrite Er. cbn [bind]. eexists; split; [reflexivity|].
    intros i x Hx. rewrite nth_error_map in Hx. destruct (nth_error css i) eqn:E; [|discriminate].
    simpl in Hx. injection Hx as <-. simpl. rewrite (Hr _ _ E). auto.
Qed.

(* noise models *)
Definition noise_like (h n : noise T) : Prop :=
  noise_structure h = noise_structure n /\ map a_shape (noise_leaves h) = map a_shape (noise_leaves n).

Lemma noise_like_huber w d n : noise_like (Huber w d) n ->
  exists w' d', n = Huber w' d' /\ noise_like w w' /\ a_shape d = a_shape d'.
Proof.
  unfold noise_like. destruct n as [W|D|w' d']; simpl; intros [H1 H2]; try discriminate.
  injection H1 as H1. exists w', d'. rewrite !map_app in H2. simpl in H2.
  apply app_inj_tail in H2. tauto.
Qed.

Lemma noise_ok_leaves (n : noise T) : noise_ok n -> Forall (fun a => arr_ok a = true) (noise_leaves n).
Proof.
  induction n as [W|D|w IH d]; simpl; intros H.
  - destruct H; auto.
  - destruct H; auto.
  - destruct H as (H1 & H2 & H3). apply Forall_app. auto.
Qed.

Lemma noise_stack_ok h : forall ns, ns <> [] -> Forall (fun n => noise_like h n /\ noise_ok n) ns ->
  exists s, noise_stack h ns = Ok s /\ (forall i n, nth_error ns i = Some n -> noise_index i s = n) /\
    noise_dim s = noise_dim h.
Proof.
  induction h as [W|D|w IH d]; intros ns Hne H.
  - assert (Hl : exists l, traverse as_gaussian ns = Ok l /\ ns = map Gaussian l /\
        Forall (fun b => a_shape b = a_shape W /\ arr_ok b = true) l /\ exists k, a_shape W = [k; k]).
    { induction H as [|n r [H1 H2] Hr IHr]; [congruence|].
      destruct n as [W'|D'|w' d']; try (destruct H1; discriminate).
      destruct H1 as [_ H1]. injection H1 as H1. destruct H2 as [H2 (k & Hk)].
      destruct r as [|n2 r2].
      - exists [W']. simpl. repeat split; auto. exists k; congruence.
      - destruct IHr as (l & El & Hm & Hl & _); [discriminate|].
        exists (W' :: l). rewrite Hm in El |- *. simpl in El |- *. rewrite El. simpl.
        split; auto. split; auto. split; auto. exists k; congruence. }
    destruct Hl as (l & El & -> & Hl & k & Hk).
    destruct (arr_stack_ok l (a_shape W)) as (st & Est & Hs & Hi); auto; [intros ->; auto|].
    exists (Gaussian st). cbn [noise_stack]. rewrite El. cbn [bind]. rewrite Est. cbn [bind]. split; auto. split.
    + intros i n Hn. rewrite nth_error_map in Hn. destruct (nth_error l i) eqn:E; [|discriminate].
      simpl in Hn. injection Hn as <-. simpl. rewrite (Hi _ _ E). auto.
    + simpl. rewrite Hs, Hk. auto.
  - assert (Hl : exists l, traverse as_diag ns = Ok l /\ ns = map DiagGaussian l /\
        Forall (fun b => a_shape b = a_shape D /\ arr_ok b = true) l /\ exists k, a_shape D = [k]).
    { induction H as [|n r [H1 H2] Hr IHr]; [congruence|].
      destruct n as [W'|D'|w' d']; try (destruct H1; discriminate).
      destruct H1 as [_ H1]. injection H1 as H1. destruct H2 as [H2 (k & Hk)].
      destruct r as [|n2 r2].
      - exists [D']. simpl. repeat split; auto. exists k; congruence.
      - destruct IHr as (l & El & Hm & Hl & _); [discriminate|].
        exists (D' :: l). rewrite Hm in El |- *. simpl in El |- *. rewrite El. simpl.
        split; auto. split; auto. split; auto. exists k; congruence. }
    destruct Hl as (l & El & -> & Hl & k & Hk).
    destruct (arr_stack_ok l (a_shape D)) as (st & Est & Hs & Hi); auto; [intros ->; auto|].
    exists (DiagGaussian st). cbn [noise_stack]. rewrite El. cbn [bind]. rewrite Est. cbn [bind]. split; auto. split.
    + intros i n Hn. rewrite nth_error_map in Hn. destruct (nth_error l i) eqn:E; [|discriminate].
      simpl in Hn. injection Hn as <-. simpl. rewrite (Hi _ _ E). auto.
    + simpl. rewrite Hs, Hk. auto.
  - assert (Hl : exists l, traverse as_huber ns = Ok l /\ ns = map (fun p => Huber (fst p) (snd p)) l /\
        Forall (fun p => noise_like w (fst p) /\ noise_ok (fst p)) l /\
        Forall (fun p => a_shape (snd p) = a_shape d /\ arr_ok (snd p) = true) l).
    { clear Hne. induction H as [|n r [H1 H2] Hr IHr]; [exists []; auto|].
      destruct IHr as (l & El & -> & Hl1 & Hl2).
      apply noise_like_huber in H1. destruct H1 as (w' & d' & -> & Hw & Hd).
      destruct H2 as (H2 & H3 & H4). exists ((w', d') :: l). simpl. rewrite El. simpl.
      split; auto. }
    destruct Hl as (l & El & -> & Hl1 & Hl2).
    assert (Hlne : l <> []) by (intros ->; auto).
    destruct (IH (map fst l)) as (ws & Ews & Hwi & Hwd).
    + intros E; apply map_eq_nil in E; auto.
    + rewrite Forall_map. auto.
    + destruct (arr_stack_ok (map snd l) (a_shape d)) as (st & Est & Hs & Hi).
      * intros E; apply map_eq_nil in E; auto.
      * rewrite Forall_map. auto.
      * exists (Huber ws st). cbn [noise_stack]. rewrite El. cbn [bind]. rewrite Ews. cbn [bind].
        rewrite Est. cbn [bind]. split; auto. split; [|simpl; auto].
        intros i n Hn. rewrite nth_error_map in Hn. destruct (nth_error l i) as [[w' d']|] eqn:E; [|discriminate].
        simpl in Hn. injection Hn as <-. simpl.
        rewrite (Hwi i w') by (rewrite (map_nth_error _ _ _ E); auto).
        rewrite (Hi i d') by (rewrite (map_nth_error _ _ _ E); auto). auto.
Qed.

(* factors *)
Lemma fd_stack_ok (h : factor T) fs : Forall (fun f => same_kind h f /\ factor_ok f) (h :: fs) ->
  exists fd, fd_stack (map anonymize (h :: fs)) = Ok fd /\
    fd_types fd = map v_ty (f_vars h) /\ noise_dim (fd_noise fd) = residual_dim h /\
    forall i f, nth_error (h :: fs) i = Some f -> fd_index i fd = anonymize f.
Proof.
  intros H.
  assert (Eq : fd_stack (map anonymize (h :: fs)) =
    if forallb (fun fd => Nat.eqb (fd_cls fd) (f_cls h) && list_eqb Nat.eqb (fd_types fd) (map v_ty (f_vars h)))
         (map anonymize (h :: fs))
    then n <- noise_stack (f_noise h) (map fd_noise (map anonymize (h :: fs))) ;;
         p <- tree_stack (Node 0 (f_params h)) (map (fun fd => Node 0 (fd_params fd)) (map anonymize (h :: fs))) ;;
         match p with
         | Node _ ps => Ok (mkFdata (f_cls h) (map v_ty (f_vars h)) n ps)
         | Leaf _ => Err ValueError
         end
    else Err ValueError) by reflexivity.
  rewrite Eq; clear Eq.
  rewrite (proj2 (forallb_forall _ (map anonymize (h :: fs)))).
  2:{ intros x Hx. apply in_map_iff in Hx. destruct Hx as (f & <- & Hf). rewrite Forall_forall in H.
      destruct (H f Hf) as [(H1 & H2 & _) _]. simpl. rewrite <- H1, Nat.eqb_refl. simpl.
      apply (list_eqb_ok Nat.eqb Nat.eqb_eq). auto. }
  destruct (noise_stack_ok (f_noise h) (map fd_noise (map anonymize (h :: fs)))) as (ns & En & Hni & Hnd).
  - discriminate.
  - rewrite map_map. cbn [anonymize fd_noise]. rewrite Forall_map. eapply Forall_impl; [|exact H].
    intros f [(_ & _ & H3 & H4 & _) [H5 _]]. repeat split; auto.
  - rewrite En. cbn [bind].
    destruct (tree_stack_ok (Node 0 (f_params h)) (map (fun fd => Node 0 (fd_params fd)) (map anonymize (h :: fs)))) as (t & Et & Hti).
    + discriminate.
    + rewrite map_map. cbn [anonymize fd_params]. rewrite Forall_map. eapply Forall_impl; [|exact H].
      intros f [(_ & _ & _ & _ & H5) [_ H6]]. split; [apply same_shape_node_intro; auto | apply tree_ok_node; auto].
    + rewrite Et. cbn [bind].
      destruct t as [a|g ps].
      * exfalso. specialize (Hti 0 (Node 0 (f_params h)) eq_refl). simpl in Hti. discriminate.
      * eexists; split; [reflexivity|]. cbn [fd_types fd_noise]. split; auto. split; [unfold residual_dim; auto|].
        intros i f Hf. unfold fd_index. cbn [fd_cls fd_types fd_noise fd_params].
        rewrite Forall_forall in H. destruct (H f (nth_error_In _ _ Hf)) as [(H1 & H2 & _) _].
        rewrite (Hni i (f_noise f)).
        2:{ rewrite map_map, (map_nth_error _ _ _ Hf). auto. }
        specialize (Hti i (Node 0 (f_params f))). rewrite map_map, (map_nth_error _ _ _ Hf) in Hti.
        specialize (Hti eq_refl). simpl in Hti. injection Hti as _ Hti. rewrite Hti.
        unfold anonymize. rewrite <- H1, <- H2. auto.
Qed.

(* the grouping key decides same_kind *)
Lemma group_key_kind (f g : factor T) : group_key f = group_key g <-> same_kind f g.
Proof.
  unfold group_key, same_kind. split.
  - intros H. injection H as H1 H2 H3 H4 H5.
    rewrite !map_app in H5.
    assert (Hn : length (map a_shape (noise_leaves (f_noise f))) = length (map a_shape (noise_leaves (f_noise g)))).
    { rewrite !map_length. clear -H3. revert H3. generalize (f_noise f) (f_noise g).
      induction n as [W|D|w IH d]; intros [W'|D'|w' d']; simpl; try discriminate; auto.
      intros [= H]. rewrite !app_length. simpl. rewrite (IH _ H). auto. }
    assert (Ha : forall (l1 l2 m1 m2 : list (list nat)), length l1 = length l2 -> l1 ++ m1 = l2 ++ m2 -> l1 = l2 /\ m1 = m2).
    { induction l1; intros [|y l2] m1 m2; simpl; try discriminate; auto. intros [= E1] [= E2 E3].
      destruct (IHl1 _ _ _ E1 E3). subst; auto. }
    destruct (Ha _ _ _ _ Hn H5) as [H6 H7]. repeat split; auto.
    assert (Hs : same_shape (Node 0 (f_params f)) (Node 0 (f_params g))).
    { split; simpl; [congruence | auto]. }
    apply same_shape_node in Hs. destruct Hs as (cs & [= ->] & Hs). auto.
  - intros (H1 & H2 & H3 & H4 & H5). apply (same_shape_node_intro 0) in H5. destruct H5 as [H5 H6]. simpl in H5, H6.
    injection H5 as H5. rewrite !map_app, H1, H2, H3, H4, H5, H6. auto.
Qed.
End Stack.
