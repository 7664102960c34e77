(* utils.py: bundled statements and concrete instances. *)
From Coq Require Import List Arith Bool ZArith Lia String Reals Lra.
From Verif Require Import Num NumR NumF32 Py Arr MUtils SpecTree SpecUtils PBase PTree PStack PUtils Ex.
Import ListNotations.

Section Any.
Context {T : Type}.
Lemma concat_err axis (l : list (arr T)) b : concat_axis axis l = Ok b ->
  l <> [] /\ exists s1 s2, axis_is (S (List.length (s1 ++ s2))) axis (List.length s1) /\ Forall (fun a => exists d, a_shape a = s1 ++ d :: s2) l.
Proof.
  unfold concat_axis. destruct l as [|a l]; [discriminate|]. cbv zeta. destruct (a_shape a) as [|x r] eqn:Ea; [discriminate|]. rewrite <- Ea in *.
  assert (Hlen : List.length (a_shape a) <> 0) by (rewrite Ea; discriminate). clear Ea.
  destruct (norm_axis (List.length (a_shape a)) axis) as [k|] eqn:Ek; [|discriminate]. cbn [bind].
  destruct (forallb (fun b => same_but k (a_shape b) (a_shape a)) (a :: l)) eqn:Ef; [|discriminate]. intros _. split; [discriminate|].
  apply norm_axis_ok in Ek. destruct Ek as (Hk & Hax). exists (firstn k (a_shape a)), (skipn (S k) (a_shape a)).
  assert (E1 : List.length (firstn k (a_shape a)) = k) by (rewrite firstn_length; lia).
  assert (E2 : S (List.length (firstn k (a_shape a) ++ skipn (S k) (a_shape a))) = List.length (a_shape a)) by (rewrite app_length, E1, skipn_length; lia).
  rewrite E1, E2. split; [split; auto|]. apply Forall_forall. intros c Hc. rewrite forallb_forall in Ef. specialize (Ef c Hc). apply same_but_iff in Ef. destruct Ef as (F1 & F2 & F3).
  exists (nth k (a_shape c) 0). rewrite <- F1, <- F2, <- split_at by lia. symmetry. apply firstn_skipn.
Qed.

Lemma op_default (l : list (arr T)) : Forall (fun a => arr_ok a = true) l -> stack_axis 0 l = arr_stack l.
Proof.
  intros Hl. unfold stack_axis, arr_stack. destruct l as [|a l0] eqn:El; auto. rewrite <- El in *. cbv zeta.
  assert (Hn : norm_axis (S (List.length (a_shape a))) 0 = Ok 0) by (apply norm_axis_ok; split; [lia | left; auto]). rewrite Hn. cbn [bind firstn skipn app].
  destruct (forallb (fun b => shape_eqb (a_shape b) (a_shape a)) l) eqn:Ef; auto. f_equal. f_equal. unfold interleave. cbn [size fold_right seq flat_map]. rewrite app_nil_r, flat_map_concat_map, map_map. f_equal.
  apply map_ext_in. intros b Hb. cbn [fst snd Nat.mul Nat.add]. rewrite forallb_forall in Ef. specialize (Ef b Hb). apply shape_eqb_iff in Ef.
  rewrite Forall_forall in Hl. specialize (Hl b Hb). unfold arr_ok in Hl. apply Nat.eqb_eq in Hl. apply slice_full. congruence.
Qed.
End Any.

Section Default.
Context {T : Type}.
Lemma node_ok g (cs : list (pytree T)) : tree_ok (Node g cs) <-> Forall tree_ok cs.
Proof.
  unfold tree_ok. cbn [leaves]. induction cs as [|c cs IH]; cbn [flat_map]; [split; constructor|]. rewrite Forall_app, IH. split; [intros (H1 & H2); constructor; auto | inversion 1; auto].
Qed.
Lemma same_children cs : Forall (fun h => forall ts : list (pytree T), Forall tree_ok ts -> tree_map_many (stack_axis 0) h ts = tree_stack h ts) cs ->
  forall css, Forall (Forall tree_ok) css -> Forall (fun c => List.length c = List.length cs) css -> map_children (stack_axis 0) cs css = stack_children cs css.
Proof.
  induction 1 as [|c cs Hc _ IH]; intros css Hok Hl; cbn [map_children stack_children]; auto. rewrite Hc.
  - rewrite IH; auto.
    + clear - Hok. induction Hok as [|y css Hy _ IH]; cbn; constructor; auto. destruct Hy; cbn; auto.
    + apply tails_length; auto.
  - clear - Hok Hl. induction Hok as [|y css Hy _ IH]; cbn; constructor.
    + inversion Hl; subst. destruct y; [discriminate|]. inversion Hy; auto.
    + inversion Hl; subst. auto.
Qed.
Lemma same_stack (h : pytree T) : forall ts, Forall tree_ok ts -> tree_map_many (stack_axis 0) h ts = tree_stack h ts.
Proof.
  induction h as [a|g cs IH] using pytree_ind'; intros ts Hok.
  - cbn [tree_map_many tree_stack]. destruct (traverse as_leaf ts) as [l|] eqn:El; auto. cbn [bind]. rewrite op_default; auto. apply as_leaf_all in El. subst ts.
    clear - Hok. induction l; cbn in *; inversion Hok; subst; constructor; auto. unfold tree_ok in H1. cbn in H1. inversion H1; auto.
  - rewrite tree_map_node, tree_stack_node. destruct (traverse (as_node g (List.length cs)) ts) as [css|] eqn:Ec; auto. cbn [bind].
    destruct (as_node_all _ _ _ _ Ec) as (-> & Hl). rewrite (same_children cs IH css); auto.
    clear - Hok. induction css; cbn in *; inversion Hok; subst; constructor; auto. apply node_ok in H1. auto.
Qed.
End Default.

Lemma leaf_ok {T} : forall (t : pytree T) p a, tree_ok t -> leaf_at t p = Some a -> arr_ok a = true.
Proof.
  induction t as [b|g cs IH] using pytree_ind'; intros [|i p] a Hok H; try discriminate.
  - injection H as ->. inversion Hok; auto.
  - cbn [leaf_at] in H. destruct (nth_error cs i) as [c|] eqn:Ec; [|discriminate]. apply nth_error_In in Ec. rewrite Forall_forall in IH. apply (IH c Ec p a); auto.
    apply node_ok in Hok. rewrite Forall_forall in Hok. auto.
Qed.
Lemma leaves_ok {T} (ts : list (pytree T)) p l : Forall tree_ok ts -> leaves_at ts p l -> Forall (fun a => arr_ok a = true) l.
Proof. intros Hok H. induction H as [|t a ts l Ht _ IH]; constructor; inversion Hok; subst; auto. eapply leaf_ok; eauto. Qed.

Lemma stack_axis_trees : forall (T : Type) axis (ts : list (pytree T)), Forall tree_ok ts ->
  (ts = [] -> pytree_stack axis ts = Err TypeError) /\
  (ts <> [] -> (exists t, pytree_stack axis ts = Ok t) <->
     (forall x y, In x ts -> In y ts -> structure x = structure y) /\
     (forall p l, leaves_at ts p l -> exists s k, Forall (fun a => a_shape a = s) l /\ axis_is (S (List.length s)) axis k)) /\
  (forall t, pytree_stack axis ts = Ok t -> (forall x, In x ts -> structure t = structure x) /\
     forall p l, leaves_at ts p l -> exists b k, leaf_at t p = Some b /\ stacked k l b /\ forall a, In a l -> axis_is (S (List.length (a_shape a))) axis k).
Proof.
  intros T axis ts Hok. split; [intros ->; auto|]. destruct ts as [|h ts0] eqn:Ets.
  { split; [intros H; contradiction | intros t Ht; discriminate]. }
  rewrite <- Ets in *. assert (Hne : ts <> []) by (rewrite Ets; discriminate). assert (Hhd : In h ts) by (rewrite Ets; left; auto).
  assert (Heq : pytree_stack axis ts = tree_map_many (stack_axis axis) h ts) by (unfold pytree_stack, tree_map_star; rewrite Ets; auto). rewrite Heq.
  assert (Hsnd : forall t, tree_map_many (stack_axis axis) h ts = Ok t -> (forall x, In x ts -> structure t = structure x) /\
     forall p l, leaves_at ts p l -> exists b k, leaf_at t p = Some b /\ stacked k l b /\ forall a, In a l -> axis_is (S (List.length (a_shape a))) axis k).
  { intros t Ht. destruct (all_agree (stack_axis axis) h ts t Hne Ht) as (Hs & Hss & Hp). rewrite Forall_forall in Hss. split; [intros x Hx; rewrite (Hss x Hx); auto|].
    intros p l Hl. destruct (Hp p l Hl) as (b & Hb & Hlf). destruct (stack_err axis l b Hb) as (Hl0 & s & k & Hsh & Hax).
    destruct (stack_ok axis l s k) as (b' & Hb' & Hst); auto.
    - pose proof (leaves_ok ts p l Hok Hl) as Ho. rewrite Forall_forall in *. intros a Ha. split; auto.
    - rewrite Hb in Hb'. injection Hb' as <-. exists b, k. split; auto. split; auto. intros a Ha. rewrite Forall_forall in Hsh. rewrite (Hsh a Ha). auto. }
  split; [|exact Hsnd]. intros _. split.
  - intros (t & Ht). destruct (all_agree (stack_axis axis) h ts t Hne Ht) as (Hs & Hss & Hp). rewrite Forall_forall in Hss. split; [intros x y Hx Hy; rewrite (Hss x Hx), (Hss y Hy); auto|].
    intros p l Hl. destruct (Hp p l Hl) as (b & Hb & _). destruct (stack_err axis l b Hb) as (_ & s & k & Hsh & Hax). exists s, k. auto.
  - intros (Hs & Hp). apply all_succeed; auto.
    + apply Forall_forall. intros x Hx. apply Hs; auto.
    + intros p l Hl. destruct (Hp p l Hl) as (s & k & Hsh & Hax). destruct (stack_ok axis l s k) as (b & Hb & _); eauto.
      * intros ->. inversion Hl. congruence.
      * pose proof (leaves_ok ts p l Hok Hl) as Ho. rewrite Forall_forall in *. intros a Ha. split; auto.
Qed.
Lemma concat_axis_trees : forall (T : Type) axis (ts : list (pytree T)), Forall tree_ok ts ->
  (ts = [] -> pytree_concatenate axis ts = Err TypeError) /\
  (ts <> [] -> (exists t, pytree_concatenate axis ts = Ok t) <->
     (forall x y, In x ts -> In y ts -> structure x = structure y) /\
     (forall p l, leaves_at ts p l -> exists s1 s2, axis_is (S (List.length (s1 ++ s2))) axis (List.length s1) /\ Forall (fun a => exists d, a_shape a = s1 ++ d :: s2) l)) /\
  (forall t, pytree_concatenate axis ts = Ok t -> (forall x, In x ts -> structure t = structure x) /\
     forall p l, leaves_at ts p l -> exists b k, leaf_at t p = Some b /\ joined k l b /\ forall a, In a l -> axis_is (List.length (a_shape a)) axis k).
Proof.
  intros T axis ts Hok. split; [intros ->; auto|]. destruct ts as [|h ts0] eqn:Ets.
  { split; [intros H; contradiction | intros t Ht; discriminate]. }
  rewrite <- Ets in *. assert (Hne : ts <> []) by (rewrite Ets; discriminate). assert (Hhd : In h ts) by (rewrite Ets; left; auto).
  assert (Heq : pytree_concatenate axis ts = tree_map_many (concat_axis axis) h ts) by (unfold pytree_concatenate, tree_map_star; rewrite Ets; auto). rewrite Heq.
  assert (Hall : forall p l s1 s2, leaves_at ts p l -> Forall (fun a => exists d, a_shape a = s1 ++ d :: s2) l -> Forall (fun a => (exists d, a_shape a = s1 ++ d :: s2) /\ arr_ok a = true) l).
  { intros p l s1 s2 Hl Hsh. pose proof (leaves_ok ts p l Hok Hl) as Ho. rewrite Forall_forall in *. intros a Ha. split; auto. }
  split; [intros _; split|].
  - intros (t & Ht). destruct (all_agree (concat_axis axis) h ts t Hne Ht) as (Hs & Hss & Hp). rewrite Forall_forall in Hss. split; [intros x y Hx Hy; rewrite (Hss x Hx), (Hss y Hy); auto|].
    intros p l Hl. destruct (Hp p l Hl) as (b & Hb & _). apply (concat_err axis l b Hb).
  - intros (Hs & Hp). apply all_succeed; auto.
    + apply Forall_forall. intros x Hx. apply Hs; auto.
    + intros p l Hl. destruct (Hp p l Hl) as (s1 & s2 & Hax & Hsh). destruct (concat_ok axis l s1 s2 (List.length s1)) as (b & Hb & _); eauto.
      intros ->. inversion Hl. congruence.
  - intros t Ht. destruct (all_agree (concat_axis axis) h ts t Hne Ht) as (Hs & Hss & Hp). rewrite Forall_forall in Hss. split; [intros x Hx; rewrite (Hss x Hx); auto|].
    intros p l Hl. destruct (Hp p l Hl) as (b & Hb & Hlf). destruct (concat_err axis l b Hb) as (Hl0 & s1 & s2 & Hax & Hsh).
    destruct (concat_ok axis l s1 s2 (List.length s1)) as (b' & Hb' & Hst); eauto. rewrite Hb in Hb'. injection Hb' as <-.
    exists b, (List.length s1). split; auto. split; auto. intros a Ha. rewrite Forall_forall in Hsh. destruct (Hsh a Ha) as (d & ->).
    replace (List.length (s1 ++ d :: s2)) with (S (List.length (s1 ++ s2))) by (rewrite !app_length; cbn; lia). auto.
Qed.
Lemma stack_default : forall (T : Type) (h : pytree T) ts, Forall tree_ok (h :: ts) -> pytree_stack 0 (h :: ts) = tree_stack h (h :: ts).
Proof. intros T h ts Hok. apply same_stack. auto. Qed.

Lemma watch : forall (T A : Type) (N : Num T) (clock : nat -> T) label (b : block T A) n r out m, b (S n) = (r, out, m) ->
  fst (fst (stopwatch clock label b n)) = r /\
  ((exists x, r = Ok x) -> stopwatch clock label b n = (r, [Rule; Running label] ++ out ++ [Seconds (nsub (clock m) (clock n)); Rule], S m)) /\
  ((exists e, r = Err e) -> stopwatch clock label b n = (r, [Rule; Running label] ++ out, m)).
Proof. intros T A N clock label b n r out m H. unfold stopwatch. rewrite H. destruct r; cbn [fst]; (split; [auto|]); split; intros (y & Hy); try discriminate; auto. Qed.
Lemma watch_time : forall (A : Type) (clock : nat -> R) label (b : block R A) n x out m, b (S n) = (Ok x, out, m) -> S n <= m -> (forall i j, i <= j -> (clock i <= clock j)%R) ->
  exists t, snd (fst (stopwatch clock label b n)) = [Rule; Running label] ++ out ++ [Seconds t; Rule] /\ (0 <= t)%R /\ t = (clock m - clock n)%R.
Proof.
  intros A clock label b n x out m H Hm Hc. unfold stopwatch. rewrite H. cbn [fst snd]. eexists. split; [reflexivity|]. cbn [nsub NumR]. assert (clock n <= clock m)%R by (apply Hc; lia). split; [lra | reflexivity].
Qed.
(* an exception inside leaves the rule open *)
Lemma watch_open : exists (clock : nat -> R) (b : block R nat) out, b 1 = (Err ValueError, [], 1) /\ snd (fst (stopwatch clock "a" b 0)) = out /\ out = [Rule; Running "a"].
Proof. exists (fun _ => 0%R), (fun n => (Err ValueError, [], n)), [Rule; Running "a"]. split; [|split]; reflexivity. Qed.

#[local] Existing Instance NumF32.
Definition grid (s : list nat) (xs : list Z) : arr f32 := mkArr s (map lit xs).
Definition tr1 : pytree f32 := Node 5 [Leaf (grid [2; 3] [1; 2; 3; 4; 5; 6]%Z); Leaf (grid [2; 1] [7; 8]%Z)].
Definition tr2 : pytree f32 := Node 5 [Leaf (grid [2; 3] [11; 12; 13; 14; 15; 16]%Z); Leaf (grid [2; 1] [17; 18]%Z)].
Lemma ex_axes : Forall tree_ok [tr1; tr2] /\
  pytree_stack 1 [tr1; tr2] = Ok (Node 5 [Leaf (grid [2; 2; 3] [1; 2; 3; 11; 12; 13; 4; 5; 6; 14; 15; 16]%Z); Leaf (grid [2; 2; 1] [7; 17; 8; 18]%Z)]) /\
  pytree_concatenate (-1) [tr1; tr2] = Ok (Node 5 [Leaf (grid [2; 6] [1; 2; 3; 11; 12; 13; 4; 5; 6; 14; 15; 16]%Z); Leaf (grid [2; 2] [7; 17; 8; 18]%Z)]) /\
  pytree_stack 3 [tr1; tr2] = Err ValueError /\ pytree_concatenate 0 [Leaf (grid [] [1]%Z)] = Err ValueError /\ pytree_stack 0 [tr1; Leaf (grid [1] [1]%Z)] = Err ValueError.
Proof. split; [repeat constructor|]. repeat split; vm_compute; reflexivity. Qed.
