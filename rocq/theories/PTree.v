(* ravel / unravel *)
From Coq Require Import List Arith Bool Lia.
From Verif Require Import Num Py Arr PBase MLayout SpecLayout SpecTree PLayout.
Import ListNotations.

Section Tree.
Context {T : Type}.

Fixpoint pytree_ind' (P : pytree T -> Prop) (HL : forall a, P (Leaf a))
  (HN : forall g cs, Forall P cs -> P (Node g cs)) (t : pytree T) : P t :=
  match t with
  | Leaf a => HL a
  | Node g cs => HN g cs ((fix go (l : list (pytree T)) : Forall P l :=
                   match l with [] => Forall_nil P | x :: r => Forall_cons x (pytree_ind' P HL HN x) (go r) end) cs)
  end.

Fixpoint unravel_list (cs : list (pytree T)) (v : list T) : list (pytree T) * list T :=
  match cs with
  | [] => ([], v)
  | c :: r => let '(c', v1) := unravel c v in let '(r', v2) := unravel_list r v1 in (c' :: r', v2)
  end.
Lemma unravel_node g cs v : unravel (Node g cs) v = let '(cs', v') := unravel_list cs v in (Node g cs', v').
Proof.
  reflexivity.
Qed.

Definition tsize (t : pytree T) : nat := total (fun a => size (a_shape a)) (leaves t).

Lemma ravel_node g (cs : list (pytree T)) : ravel (Node g cs) = concat (map ravel cs).
Proof.
  unfold ravel; simpl. induction cs; simpl; auto.
  rewrite map_app, concat_app, IHcs. auto.
Qed.
Lemma tsize_node g (cs : list (pytree T)) : tsize (Node g cs) = total tsize cs.
Proof.
  unfold tsize; simpl. unfold total at 2. induction cs; simpl; auto. rewrite total_app, IHcs. auto.
Qed.
Lemma tree_ok_node g (cs : list (pytree T)) : tree_ok (Node g cs) <-> Forall tree_ok cs.
Proof.
  unfold tree_ok; simpl. induction cs; simpl; [split; constructor|].
  rewrite Forall_app, IHcs, Forall_cons_iff. tauto.
Qed.

Lemma ravel_length (t : pytree T) : tree_ok t -> length (ravel t) = tsize t.
Proof.
  unfold tree_ok, ravel, tsize. induction 1 as [|a l Ha Hl IH]; simpl; auto.
  rewrite app_length, IH. unfold arr_ok in Ha. apply Nat.eqb_eq in Ha. lia.
Qed.

Lemma same_shape_size (x y : pytree T) : same_shape x y -> tsize x = tsize y.
Proof.
  unfold same_shape, tsize. intros [_ H]. revert H. generalize (leaves x) (leaves y).
  induction l as [|a r IH]; intros [|b s]; simpl; try discriminate; auto.
  intros [= E1 E2]. rewrite E1, (IH _ E2); auto.
Qed.

(* same_shape as a structural relation *)
Lemma leaves_structure_len : forall x y : pytree T, structure x = structure y -> length (leaves x) = length (leaves y).
Proof.
  induction x as [a|g cs IH] using pytree_ind'; intros [b|g' cs']; simpl; try discriminate; auto.
  intros [= -> H]. revert cs' H. induction IH as [|x l Hx Hl IHl]; intros [|y r]; simpl; try discriminate; auto.
  intros [= E1 E2]. rewrite !app_length. rewrite (Hx _ E1), (IHl _ E2). auto.
Qed.
Lemma same_shape_node g (cs : list (pytree T)) y : same_shape (Node g cs) y ->
  exists cs', y = Node g cs' /\ Forall2 same_shape cs cs'.
Proof.
  destruct y as [b|g' cs']; unfold same_shape; simpl; intros [H1 H2]; [discriminate|].
  injection H1 as -> H1. exists cs'; split; auto.
  revert cs' H1 H2. induction cs as [|x l IH]; intros [|y r]; simpl; try discriminate; constructor.
  - injection H1 as E1 E2. split; auto. rewrite !map_app in H2.
    assert (Hl : length (map a_shape (leaves x)) = length (map a_shape (leaves y))).
    { rewrite !map_length. apply leaves_structure_len; auto. }
    clear -H2 Hl. revert H2 Hl. generalize (map a_shape (leaves x)) (map a_shape (leaves y)).
    intros l1 l2 H Hl. apply (f_equal (firstn (length l1))) in H.
    rewrite firstn_app, firstn_all, Nat.sub_diag, firstn_O, app_nil_r in H.
    rewrite Hl, firstn_app, firstn_all, Nat.sub_diag, firstn_O, app_nil_r in H. auto.
  - injection H1 as E1 E2. apply IH; auto. rewrite !map_app in H2.
    assert (Hl : length (map a_shape (leaves x)) = length (map a_shape (leaves y))).
    { rewrite !map_length. apply leaves_structure_len; auto. }
    apply (f_equal (skipn (length (map a_shape (leaves x))))) in H2.
    rewrite skipn_app, skipn_all, Nat.sub_diag, skipn_O in H2.
    rewrite Hl, skipn_app, skipn_all, Nat.sub_diag, skipn_O in H2. auto.
Qed.
Lemma same_shape_node_intro g (cs cs' : list (pytree T)) : Forall2 same_shape cs cs' -> same_shape (Node g cs) (Node g cs').
Proof.
  unfold same_shape; simpl. induction 1 as [|x y l l' [H1 H2] Hl [IH1 IH2]]; simpl; auto.
  injection IH1 as IH1. rewrite !map_app, H1, H2, IH2. split; [congruence | auto].
Qed.
Lemma same_shape_refl (x : pytree T) : same_shape x x.
Proof. split; auto. Qed.

(* unravel ex consumes exactly tsize ex entries and rebuilds *)
Lemma unravel_spec ex : forall v, tsize ex <= length v ->
  let '(t, rest) := unravel ex v in
  same_shape t ex /\ tree_ok t /\ ravel t = firstn (tsize ex) v /\ rest = skipn (tsize ex) v.
Proof.
  induction ex as [a|g cs IH] using pytree_ind'; intros v Hv.
  - cbn. unfold tsize in *; cbn in *. rewrite Nat.add_0_r in *. repeat split; auto.
    + constructor; auto. unfold arr_ok; simpl. rewrite firstn_length. apply Nat.eqb_eq. lia.
    + unfold ravel; simpl. rewrite app_nil_r. auto.
  - rewrite unravel_node. rewrite tsize_node in *.
    assert (H : let '(l, rest) := unravel_list cs v in
       Forall2 same_shape l cs /\ Forall tree_ok l /\ concat (map ravel l) = firstn (total tsize cs) v /\
       rest = skipn (total tsize cs) v).
    { revert v Hv. induction IH as [|c r Hc Hr IHr]; intros v Hv; simpl; auto.
      simpl in Hv. specialize (Hc v ltac:(lia)). destruct (unravel c v) as [c' v1].
      destruct Hc as (H1 & H2 & H3 & ->).
      specialize (IHr (skipn (tsize c) v)). rewrite skipn_length in IHr.
      specialize (IHr ltac:(lia)). destruct (unravel_list r (skipn (tsize c) v)) as [r' v2].
      destruct IHr as (H4 & H5 & H6 & ->). repeat split; auto.
      - simpl. rewrite H3, H6. fold (total tsize r).
        rewrite <- (firstn_skipn (tsize c) (firstn (tsize c + total tsize r) v)).
        rewrite firstn_firstn, Nat.min_l by lia. f_equal.
        rewrite skipn_firstn_comm. f_equal. lia.
      - rewrite skipn_skipn'. auto. }
    destruct (unravel_list cs v) as [l rest]. destruct H as (H1 & H2 & H3 & ->).
    repeat split.
    + apply (same_shape_node_intro g) in H1. apply H1.
    + apply (same_shape_node_intro g) in H1. apply H1.
    + apply tree_ok_node; auto.
    + rewrite ravel_node; auto.
Qed.

(* a tree is determined by its shape and its ravel *)
Lemma ravel_inj : forall x y : pytree T, same_shape x y -> tree_ok x -> tree_ok y -> ravel x = ravel y -> x = y.
Proof.
  induction x as [a|g cs IH] using pytree_ind'; intros y Hs Hx Hy Hr.
  - destruct y as [b|g' cs']; destruct Hs as [H1 H2]; [|discriminate].
    simpl in H2. injection H2 as H2. unfold ravel in Hr; simpl in Hr. rewrite !app_nil_r in Hr.
    destruct a, b; simpl in *; congruence.
  - apply same_shape_node in Hs. destruct Hs as (cs' & -> & Hs). f_equal.
    apply tree_ok_node in Hx. apply tree_ok_node in Hy. rewrite !ravel_node in Hr.
    revert IH Hx Hy Hr. induction Hs as [|x y l l' Hxy Hl IHl]; intros IH Hx Hy Hr; auto.
    inversion IH; inversion Hx; inversion Hy; subst. simpl in Hr.
    assert (E : length (ravel x) = length (ravel y)).
    { rewrite !ravel_length by auto. apply same_shape_size; auto. }
    assert (E1 : ravel x = ravel y).
    { apply (f_equal (firstn (length (ravel x)))) in Hr. rewrite E in Hr at 2.
      rewrite !firstn_app, !firstn_all, !Nat.sub_diag, !firstn_O, !app_nil_r in Hr. auto. }
    rewrite E1 in Hr. apply app_inv_head in Hr. f_equal; auto.
Qed.
End Tree.

Section Flatten.
Context {T : Type} {N : Num T}.
Variable c : vclass T.
Hypothesis Hok : tree_ok (vc_default c).

Lemma param_dim_tsize : param_dim c = tsize (vc_default c).
Proof. apply ravel_length; auto. Qed.

Lemma flatten_length x : value_ok c x -> length (flatten x) = param_dim c.
Proof.
  intros [H1 H2]. unfold flatten. rewrite ravel_length, param_dim_tsize by auto.
  apply same_shape_size; auto.
Qed.

Lemma unflatten_ok v : length v = param_dim c ->
  exists x, unflatten c v = Ok x /\ value_ok c x /\ flatten x = v.
Proof.
  intros H. unfold unflatten. rewrite (proj2 (Nat.eqb_eq _ _) H).
  pose proof (unravel_spec (vc_default c) v) as Hs. rewrite <- param_dim_tsize in Hs.
  specialize (Hs ltac:(lia)). destruct (unravel (vc_default c) v) as [t rest].
  destruct Hs as (H1 & H2 & H3 & _). exists t; repeat split; auto; try apply H1.
  unfold flatten. rewrite H3. apply firstn_all2. lia.
Qed.

Lemma unflatten_err v : length v <> param_dim c -> unflatten c v = Err ValueError.
Proof. intros H. unfold unflatten. rewrite (proj2 (Nat.eqb_neq _ _) H). auto. Qed.

Lemma unflatten_flatten x : value_ok c x -> unflatten c (flatten x) = Ok x.
Proof.
  intros H. destruct (unflatten_ok (flatten x)) as (y & Hy & Hv & Hf).
  - apply flatten_length; auto.
  - rewrite Hy. f_equal. destruct H as [H1 H2], Hv as [H3 H4].
    apply ravel_inj; auto. split; [destruct H2, H4; congruence | destruct H2, H4; congruence].
Qed.

Lemma unflatten_inj v w x : unflatten c v = Ok x -> unflatten c w = Ok x -> v = w.
Proof.
  intros H1 H2.
  assert (length v = param_dim c) by (destruct (Nat.eq_dec (length v) (param_dim c)); auto; rewrite unflatten_err in H1 by auto; discriminate).
  assert (length w = param_dim c) by (destruct (Nat.eq_dec (length w) (param_dim c)); auto; rewrite unflatten_err in H2 by auto; discriminate).
  destruct (unflatten_ok v) as (x1 & E1 & _ & F1); auto.
  destruct (unflatten_ok w) as (x2 & E2 & _ & F2); auto. congruence.
Qed.

Lemma flatten_laws :
  (forall x, value_ok c x -> length (flatten x) = param_dim c /\ unflatten c (flatten x) = Ok x) /\
  (forall v, length v = param_dim c -> exists x, unflatten c v = Ok x /\ value_ok c x /\ flatten x = v) /\
  (forall v, length v <> param_dim c -> unflatten c v = Err ValueError).
Proof.
  split; [|split].
  - intros x H. split; [apply flatten_length | apply unflatten_flatten]; auto.
  - apply unflatten_ok.
  - apply unflatten_err.
Qed.
End Flatten.
