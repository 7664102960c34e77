(* Stacking and concatenating along an axis, and the same on pytrees. *)
From Coq Require Import List Arith Bool ZArith Lia.
From Verif Require Import Num Py Arr MUtils SpecTree SpecUtils.
From Verif Require Import PBase PTree PStack.
Import ListNotations.

Lemma size_cons d s : size (d :: s) = d * size s.
Proof. reflexivity. Qed.
Lemma size_app s s' : size (s ++ s') = size s * size s'.
Proof. induction s as [|d s IH]; cbn [app]; rewrite ?size_cons; [cbn; lia|]. rewrite IH. lia. Qed.
Lemma skipn_exact {A} k (l1 l2 : list A) : length l1 = k -> skipn k (l1 ++ l2) = l2.
Proof. intros <-. rewrite skipn_app, skipn_all, Nat.sub_diag. reflexivity. Qed.
Lemma offset_app s1 : forall s2 i1 i2, length i1 = length s1 -> offset (s1 ++ s2) (i1 ++ i2) = offset s1 i1 * size s2 + offset s2 i2.
Proof.
  induction s1 as [|d s1 IH]; intros s2 [|i i1] i2 H; try discriminate; cbn [app offset]; [lia|]. rewrite IH, size_app by (cbn in H; lia). lia.
Qed.
Lemma offset_lt s : forall idx, valid s idx -> offset s idx < size s.
Proof.
  induction s as [|d s IH]; intros idx H; inversion H; subst; cbn [offset]; [cbn; lia|]. rewrite size_cons. specialize (IH l). 
  assert (offset s l < size s) by (apply IH; auto). nia.
Qed.
Lemma valid_length s idx : valid s idx -> length idx = length s.
Proof. induction 1; cbn; congruence. Qed.
Lemma valid_firstn s idx k : valid s idx -> valid (firstn k s) (firstn k idx).
Proof. intros H. revert k. induction H; intros [|k]; cbn; constructor; auto. apply IHForall2. Qed.
Lemma valid_skipn s idx k : valid s idx -> valid (skipn k s) (skipn k idx).
Proof. intros H. revert k. induction H; intros [|k]; cbn; try constructor; auto. Qed.
Lemma valid_nth s idx k : valid s idx -> k < length s -> nth k idx 0 < nth k s 0.
Proof. intros H. revert k. induction H; intros [|k] Hk; cbn in *; try lia; auto. apply IHForall2. lia. Qed.
Lemma split_at {A} (l : list A) k d : k < length l -> skipn k l = nth k l d :: skipn (S k) l.
Proof. revert k. induction l as [|x l IH]; intros [|k] H; cbn in *; try lia; auto. apply IH. lia. Qed.
Lemma shape_eqb_iff s s' : shape_eqb s s' = true <-> s = s'.
Proof.
  revert s'. induction s as [|d s IH]; intros [|d' s']; cbn; try (split; congruence). rewrite andb_true_iff, Nat.eqb_eq. fold shape_eqb. rewrite IH. split; [intros (-> & ->); auto | intros H; injection H; auto].
Qed.
Lemma list_sum_cons x l : list_sum (x :: l) = x + list_sum l.
Proof. reflexivity. Qed.
Lemma list_sum_scale {A} (f : A -> nat) w l : list_sum (map (fun x => f x * w) l) = list_sum (map f l) * w.
Proof. induction l as [|x l IH]; cbn [map]; rewrite ?list_sum_cons; [reflexivity|]. rewrite IH. lia. Qed.
Lemma list_sum_const {A} w (l : list A) : list_sum (map (fun _ => w) l) = length l * w.
Proof. induction l as [|x l IH]; cbn [map length]; rewrite ?list_sum_cons; [reflexivity|]. rewrite IH. lia. Qed.

Section Arrays.
Context {T : Type}.
Lemma rows_nth {A} (f : nat -> list A) W : (forall i, length (f i) = W) -> forall p a i q, i < p -> q < W -> nth_error (flat_map f (seq a p)) (i * W + q) = nth_error (f (a + i)) q.
Proof.
  intros HW. induction p as [|p IH]; intros a i q Hi Hq; [lia|]. cbn [seq flat_map]. destruct i as [|i].
  - rewrite nth_error_app1 by (rewrite HW; lia). rewrite Nat.add_0_r. auto.
  - rewrite nth_error_app2 by (rewrite HW; lia). rewrite HW. replace (S i * W + q - W) with (i * W + q) by lia. rewrite IH by lia. f_equal. f_equal. lia.
Qed.
Lemma rows_length {A} (f : nat -> list A) W : forall p a, (forall i, a <= i < a + p -> length (f i) = W) -> length (flat_map f (seq a p)) = p * W.
Proof. induction p as [|p IH]; intros a H; cbn [seq flat_map]; auto. rewrite app_length, IH, H; [lia | lia|]. intros; apply H; lia. Qed.
Lemma rows_nth' {A} (f : nat -> list A) W : forall p a i q, (forall j, a <= j < a + p -> length (f j) = W) -> i < p -> q < W -> nth_error (flat_map f (seq a p)) (i * W + q) = nth_error (f (a + i)) q.
Proof.
  induction p as [|p IH]; intros a i q HW Hi Hq; [lia|]. cbn [seq flat_map]. destruct i as [|i].
  - rewrite nth_error_app1 by (rewrite HW; lia). rewrite Nat.add_0_r. auto.
  - rewrite nth_error_app2 by (rewrite HW; lia). rewrite HW by lia. replace (S i * W + q - W) with (i * W + q) by lia. rewrite IH; [f_equal; f_equal; lia | intros; apply HW; lia | lia | lia].
Qed.
Lemma row_length (rows : list (nat * list T)) p i : Forall (fun wd => length (snd wd) = p * fst wd) rows -> i < p ->
  length (flat_map (fun wd => slice (snd wd) (i * fst wd) (i * fst wd + fst wd)) rows) = list_sum (map fst rows).
Proof.
  intros H Hi. induction H as [|(w & d) rows Hd H IH]; auto. cbn [flat_map map]. rewrite app_length, IH, list_sum_cons. cbn [fst snd] in *. rewrite slice_length; [lia | lia|]. rewrite Hd. nia.
Qed.
Lemma row_nth (rows : list (nat * list T)) p i : Forall (fun wd => length (snd wd) = p * fst wd) rows -> i < p -> forall j w d r, nth_error rows j = Some (w, d) -> r < w ->
  nth_error (flat_map (fun wd => slice (snd wd) (i * fst wd) (i * fst wd + fst wd)) rows) (list_sum (map fst (firstn j rows)) + r) = nth_error d (i * w + r).
Proof.
  intros H Hi. induction H as [|(w0 & d0) rows Hd H IH]; intros [|j] w d r Hj Hr; try discriminate.
  - injection Hj as -> ->. cbn [firstn map flat_map fst snd] in *. rewrite Nat.add_0_l. rewrite nth_error_app1 by (rewrite slice_length; [lia | lia | rewrite Hd; nia]).
    rewrite nth_error_slice by lia. auto.
  - cbn [firstn map flat_map fst snd] in *. rewrite list_sum_cons. rewrite nth_error_app2 by (rewrite slice_length; [lia | lia | rewrite Hd; nia]).
    rewrite slice_length by (try lia; rewrite Hd; nia). replace (w0 + _ + r - _) with (list_sum (map fst (firstn j rows)) + r) by lia. apply IH; auto.
Qed.
Lemma interleave_nth p (rows : list (nat * list T)) : Forall (fun wd => length (snd wd) = p * fst wd) rows -> forall i j w d r, i < p -> nth_error rows j = Some (w, d) -> r < w ->
  nth_error (interleave p rows) (i * list_sum (map fst rows) + (list_sum (map fst (firstn j rows)) + r)) = nth_error d (i * w + r).
Proof.
  intros H i j w d r Hi Hj Hr. unfold interleave. rewrite rows_nth' with (W := list_sum (map fst rows)); auto.
  - cbn [Nat.add]. apply row_nth with (p := p); auto.
  - intros k Hk. apply row_length with (p := p); auto. lia.
  - clear H. revert rows Hj. induction j as [|j IH]; intros [|(w0 & d0) rows] Hj; try discriminate; cbn [firstn map]; rewrite ?list_sum_cons.
    + injection Hj as -> ->. cbn. lia.
    + specialize (IH rows Hj). cbn [fst]. lia.
Qed.
Lemma interleave_length p (rows : list (nat * list T)) : Forall (fun wd => length (snd wd) = p * fst wd) rows -> length (interleave p rows) = p * list_sum (map fst rows).
Proof. intros H. unfold interleave. apply rows_length. intros i Hi. apply row_length with (p := p); auto. lia. Qed.

Lemma norm_axis_ok nd axis k : norm_axis nd axis = Ok k <-> axis_is nd axis k.
Proof.
  unfold norm_axis, axis_is. destruct (Z.leb_spec (- Z.of_nat nd) axis); destruct (Z.ltb_spec axis (Z.of_nat nd)); cbn [andb].
  2-4: split; [discriminate | lia].
  destruct (Z.ltb_spec axis 0); split; [intros He; injection He; lia | intros He; f_equal; lia | intros He; injection He; lia | intros He; f_equal; lia].
Qed.
Lemma norm_axis_err nd axis : (forall k, ~ axis_is nd axis k) -> norm_axis nd axis = Err ValueError.
Proof.
  intros H. destruct (norm_axis nd axis) as [k|e] eqn:Ek; [exfalso; apply (H k); apply norm_axis_ok; auto|]. unfold norm_axis in Ek. destruct (_ && _); congruence.
Qed.

(* ---- stack ---- *)
Lemma stack_ok axis (l : list (arr T)) s k : l <> [] -> Forall (fun a => a_shape a = s /\ arr_ok a = true) l -> axis_is (S (length s)) axis k ->
  exists b, stack_axis axis l = Ok b /\ stacked k l b.
Proof.
  intros Hne Hl Hk. destruct l as [|a0 l0] eqn:El; [contradiction|]. rewrite <- El in *. assert (Hs0 : a_shape a0 = s) by (rewrite El in Hl; inversion Hl; tauto).
  assert (Hstk : stack_axis axis l = Ok (mkArr (firstn k s ++ length l :: skipn k s) (interleave (size (firstn k s)) (map (fun b => (size (skipn k s), a_data b)) l)))).
  { unfold stack_axis. rewrite El at 1. cbv zeta. rewrite Hs0. rewrite (proj2 (norm_axis_ok _ _ _) Hk). cbn [bind].
    replace (forallb (fun b => shape_eqb (a_shape b) s) l) with true; auto. symmetry. apply forallb_forall. intros b Hb. rewrite Forall_forall in Hl. apply shape_eqb_iff. apply Hl; auto. }
  eexists. split; [exact Hstk|]. set (p := size (firstn k s)). set (w := size (skipn k s)).
  assert (Hpw : p * w = size s) by (unfold p, w; rewrite <- size_app, firstn_skipn; auto).
  assert (Hrows : Forall (fun wd : nat * list T => length (snd wd) = p * fst wd) (map (fun b => (w, a_data b)) l)).
  { apply Forall_forall. intros wd Hin. apply in_map_iff in Hin. destruct Hin as (b & <- & Hb). rewrite Forall_forall in Hl. destruct (Hl b Hb) as (Hsb & Hob). cbn [fst snd].
    unfold arr_ok in Hob. apply Nat.eqb_eq in Hob. rewrite Hob, Hsb. auto. }
  assert (Hsum : list_sum (map fst (map (fun b => (w, a_data b)) l)) = length l * w) by (rewrite map_map; cbn [fst]; apply list_sum_const).
  split.
  - unfold arr_ok. apply Nat.eqb_eq. cbn [a_data a_shape]. rewrite interleave_length by exact Hrows. rewrite Hsum, size_app, size_cons. fold p w. lia.
  - intros a Ha. rewrite Forall_forall in Hl. destruct (Hl a Ha) as (Hsa & Hoa). rewrite Hsa. destruct Hk as (Hk & _). split; [lia|]. split; [reflexivity|].
    intros j idx Hj Hv. unfold element. cbn [a_data a_shape]. pose proof (valid_length _ _ Hv) as Hlen.
    rewrite offset_app by (rewrite !firstn_length; lia). cbn [offset]. rewrite size_cons. fold w p.
    assert (Ho : offset s idx = offset (firstn k s) (firstn k idx) * w + offset (skipn k s) (skipn k idx)).
    { rewrite <- (firstn_skipn k s) at 1. rewrite <- (firstn_skipn k idx) at 1. apply offset_app. rewrite !firstn_length; lia. }
    rewrite Hsa, Ho. pose proof (offset_lt _ _ (valid_firstn s idx k Hv)) as H1. pose proof (offset_lt _ _ (valid_skipn s idx k Hv)) as H2. fold p in H1. fold w in H2.
    rewrite <- (interleave_nth p (map (fun b => (w, a_data b)) l) Hrows _ j w (a_data a)); auto.
    + rewrite Hsum. f_equal. rewrite firstn_map, map_map. cbn [fst]. rewrite list_sum_const, firstn_length.
      assert (j < length l) by (apply nth_error_Some; congruence). rewrite Nat.min_l by lia. auto.
    + rewrite nth_error_map, Hj. reflexivity.
Qed.
Lemma stack_err axis (l : list (arr T)) b : stack_axis axis l = Ok b -> l <> [] /\ exists s k, Forall (fun a => a_shape a = s) l /\ axis_is (S (length s)) axis k.
Proof.
  unfold stack_axis. destruct l as [|a l]; [discriminate|]. cbv zeta. destruct (norm_axis (S (length (a_shape a))) axis) as [k|] eqn:Ek; [|discriminate]. cbn [bind].
  destruct (forallb (fun b => shape_eqb (a_shape b) (a_shape a)) (a :: l)) eqn:Ef; [|discriminate]. intros _. split; [discriminate|].
  exists (a_shape a), k. split; [|apply norm_axis_ok; auto]. apply Forall_forall. intros b' Hb. rewrite forallb_forall in Ef. apply shape_eqb_iff. apply Ef; auto.
Qed.

(* ---- concatenate ---- *)
Lemma same_but_iff k s s' : same_but k s s' = true <-> firstn k s = firstn k s' /\ skipn (S k) s = skipn (S k) s' /\ length s = length s'.
Proof. unfold same_but. rewrite !andb_true_iff, !shape_eqb_iff, Nat.eqb_eq. tauto. Qed.
Lemma concat_ok axis (l : list (arr T)) s1 s2 k : l <> [] ->
  Forall (fun a => (exists d, a_shape a = s1 ++ d :: s2) /\ arr_ok a = true) l -> length s1 = k -> axis_is (S (length (s1 ++ s2))) axis k ->
  exists b, concat_axis axis l = Ok b /\ joined k l b.
Proof.
  intros Hne Hl Hs1 Hk. destruct l as [|a0 l0] eqn:El; [contradiction|]. rewrite <- El in *.
  assert (Hs0 : exists d, a_shape a0 = s1 ++ d :: s2) by (rewrite El in Hl; inversion Hl; tauto). destruct Hs0 as (d0 & Hs0).
  assert (F1 : forall d : nat, firstn k (s1 ++ d :: s2) = s1) by (intros d; rewrite <- Hs1; rewrite firstn_app, firstn_all, Nat.sub_diag; cbn; apply app_nil_r).
  assert (F2 : forall d : nat, skipn (S k) (s1 ++ d :: s2) = s2) by (intros d; replace (s1 ++ d :: s2) with ((s1 ++ [d]) ++ s2) by (rewrite <- app_assoc; auto); apply skipn_exact; rewrite app_length; cbn; lia).
  assert (F3 : forall d : nat, skipn k (s1 ++ d :: s2) = d :: s2) by (intros d; apply skipn_exact; auto).
  assert (F4 : forall d : nat, nth k (s1 ++ d :: s2) 0 = d) by (intros d; rewrite <- Hs1; apply nth_middle).
  rewrite Forall_forall in Hl.
  set (dim := fun b : arr T => nth k (a_shape b) 0).
  assert (Hsh : forall b, In b l -> a_shape b = s1 ++ dim b :: s2) by (intros b Hb; destruct (Hl b Hb) as ((d & Hd) & _); unfold dim; rewrite Hd, F4; auto).
  assert (Hstk : concat_axis axis l = Ok (mkArr (s1 ++ list_sum (map dim l) :: s2) (interleave (size s1) (map (fun b => (size (skipn k (a_shape b)), a_data b)) l)))).
  { unfold concat_axis. rewrite El at 1. cbv zeta. assert (Hn : a_shape a0 <> []) by (rewrite Hs0; destruct s1; discriminate).
    destruct (a_shape a0) as [|x0 r0] eqn:Ea0; [contradiction|]. rewrite Hs0 at 1. replace (length (s1 ++ d0 :: s2)) with (S (length (s1 ++ s2))) by (rewrite !app_length; cbn; lia).
    rewrite (proj2 (norm_axis_ok _ _ _) Hk). cbn [bind]. rewrite Hs0. rewrite F1, F2.
    replace (forallb (fun b => same_but k (a_shape b) (s1 ++ d0 :: s2)) l) with true; auto. symmetry. apply forallb_forall. intros b Hb. apply same_but_iff.
    rewrite (Hsh b Hb), !F1, !F2, !app_length. cbn. auto. }
  eexists. split; [exact Hstk|]. set (p := size s1). set (w := size s2).
  assert (Hrow : map (fun b => (size (skipn k (a_shape b)), a_data b)) l = map (fun b => (dim b * w, a_data b)) l).
  { apply map_ext_in. intros b Hb. rewrite (Hsh b Hb) at 1. rewrite F3. reflexivity. }
  rewrite Hrow.
  assert (Hrows : Forall (fun wd : nat * list T => length (snd wd) = p * fst wd) (map (fun b => (dim b * w, a_data b)) l)).
  { apply Forall_forall. intros wd Hin. apply in_map_iff in Hin. destruct Hin as (b & <- & Hb). destruct (Hl b Hb) as (_ & Hob). cbn [fst snd].
    unfold arr_ok in Hob. apply Nat.eqb_eq in Hob. rewrite Hob, (Hsh b Hb), size_app, size_cons. reflexivity. }
  assert (Hsum : forall l', list_sum (map fst (map (fun b => (dim b * w, a_data b)) l')) = list_sum (map dim l') * w) by (intros l'; rewrite map_map; cbn [fst]; apply list_sum_scale).
  split.
  - unfold arr_ok. apply Nat.eqb_eq. cbn [a_data a_shape]. rewrite interleave_length by exact Hrows. rewrite Hsum, size_app, size_cons. fold p w. lia.
  - intros a Ha. rewrite (Hsh a Ha). rewrite F1, F2. split; [rewrite app_length; cbn; lia|]. split; [reflexivity|].
    intros j idx Hj Hv. unfold element. cbn [a_data a_shape]. pose proof (valid_length _ _ Hv) as Hlen. rewrite app_length in Hlen. cbn [length] in Hlen.
    rewrite offset_app by (rewrite firstn_length; lia). cbn [offset]. rewrite size_cons. fold w p.
    assert (Hidx : idx = firstn k idx ++ nth k idx 0 :: skipn (S k) idx) by (rewrite <- split_at by lia; symmetry; apply firstn_skipn).
    assert (Ho : offset (a_shape a) idx = offset s1 (firstn k idx) * (dim a * w) + (nth k idx 0 * w + offset s2 (skipn (S k) idx))).
    { rewrite Hidx at 1. rewrite (Hsh a Ha), offset_app by (rewrite firstn_length; lia). reflexivity. }
    rewrite Ho. pose proof (offset_lt _ _ (valid_firstn _ idx k Hv)) as H1. rewrite F1 in H1. fold p in H1.
    pose proof (offset_lt _ _ (valid_skipn _ idx (S k) Hv)) as H2. rewrite F2 in H2. fold w in H2.
    pose proof (valid_nth _ idx k Hv ltac:(rewrite app_length; cbn; lia)) as H3. rewrite F4 in H3.
    rewrite <- (interleave_nth p (map (fun b => (dim b * w, a_data b)) l) Hrows _ j (dim a * w) (a_data a)); auto.
    + rewrite Hsum. f_equal. rewrite firstn_map, Hsum. fold dim. lia.
    + rewrite nth_error_map, Hj. reflexivity.
    + nia.
Qed.
End Arrays.

Section Trees.
Context {T : Type}.
Variable op : list (arr T) -> result (arr T).

Fixpoint map_children (cs : list (pytree T)) (css : list (list (pytree T))) : result (list (pytree T)) :=
  match cs with
  | [] => Ok []
  | c :: cs' => x <- tree_map_many op c (map (hd c) css) ;; xs <- map_children cs' (map (@tl _) css) ;; Ok (x :: xs)
  end.
Lemma tree_map_node g cs ts : tree_map_many op (Node g cs) ts =
  (css <- traverse (as_node g (length cs)) ts ;; r <- map_children cs css ;; Ok (Node g r)).
Proof. reflexivity. Qed.
Definition child_leaf (cs : list (pytree T)) (i : nat) (p : list nat) : option (arr T) := match nth_error cs i with Some c => leaf_at c p | None => None end.
Lemma leaf_child g cs i p : leaf_at (Node g cs) (i :: p) = child_leaf cs i p.
Proof. reflexivity. Qed.

Definition agrees (h : pytree T) : Prop := forall ts t, ts <> [] -> tree_map_many op h ts = Ok t ->
  structure t = structure h /\ Forall (fun x => structure x = structure h) ts /\
  forall p l, leaves_at ts p l -> exists b, op l = Ok b /\ leaf_at t p = Some b.
Definition succeeds (h : pytree T) : Prop := forall ts, ts <> [] -> Forall (fun x => structure x = structure h) ts ->
  (forall p l, leaves_at ts p l -> exists b, op l = Ok b) -> exists t, tree_map_many op h ts = Ok t.

Lemma as_leaf_all ts (l : list (arr T)) : traverse as_leaf ts = Ok l -> ts = map (fun a => Leaf a) l.
Proof.
  revert l. induction ts as [|t ts IH]; intros l H; cbn in H; [injection H as <-; auto|]. destruct t as [a|]; [|discriminate]. cbn [as_leaf bind] in H.
  destruct (traverse as_leaf ts) as [l'|]; [|discriminate]. injection H as <-. cbn. rewrite (IH l'); auto.
Qed.
Lemma as_node_all g n ts (css : list (list (pytree T))) : traverse (as_node g n) ts = Ok css -> ts = map (Node g) css /\ Forall (fun cs => length cs = n) css.
Proof.
  revert css. induction ts as [|t ts IH]; intros css H; cbn in H; [injection H as <-; auto|]. destruct t as [|g' cs]; [discriminate|]. cbn [as_node] in H.
  destruct (Nat.eqb_spec g g') as [<-|]; [|discriminate]. destruct (Nat.eqb_spec n (length cs)) as [Hn|]; [|discriminate]. cbn [andb bind] in H.
  destruct (traverse (as_node g n) ts) as [l'|]; [|discriminate]. injection H as <-. destruct (IH l' eq_refl) as (-> & Hl). cbn. auto.
Qed.
Lemma as_leaf_map (l : list (arr T)) : traverse as_leaf (map (fun a => Leaf a) l) = Ok l.
Proof. induction l as [|a l IH]; cbn; auto. rewrite IH. auto. Qed.
Lemma as_node_map g n (css : list (list (pytree T))) : Forall (fun cs => length cs = n) css -> traverse (as_node g n) (map (Node g) css) = Ok css.
Proof. induction 1 as [|cs css Hl _ IH]; cbn; auto. rewrite Nat.eqb_refl, Hl, Nat.eqb_refl. cbn. rewrite IH. auto. Qed.
Lemma leaves_leaf (l l' : list (arr T)) p : l <> [] -> leaves_at (map (fun a => Leaf a) l) p l' -> p = [] /\ l' = l.
Proof.
  intros Hne H. assert (Hp : p = []). { destruct l as [|a l]; [contradiction|]. inversion H; subst. destruct p; [auto | discriminate]. }
  split; auto. subst p. clear Hne. revert l' H. induction l as [|a l IH]; intros l' H; inversion H; subst; auto. cbn in H2. injection H2 as ->. f_equal. apply IH. auto.
Qed.
Lemma heads c (css : list (list (pytree T))) n p l : Forall (fun cs => length cs = S n) css -> leaves_at (map (hd c) css) p l <-> Forall2 (fun cs a => child_leaf cs 0 p = Some a) css l.
Proof.
  intros H. revert l. induction H as [|cs css Hl _ IH]; intros l; cbn [map]; split; intros Hx; inversion Hx; subst; constructor; auto.
  - destruct cs; [discriminate|]. auto.
  - apply IH. auto.
  - destruct cs; [discriminate|]. auto.
  - apply IH. auto.
Qed.
Lemma tails (css : list (list (pytree T))) n i p l : Forall (fun cs => length cs = S n) css ->
  Forall2 (fun cs a => child_leaf cs i p = Some a) (map (@tl _) css) l <-> Forall2 (fun cs a => child_leaf cs (S i) p = Some a) css l.
Proof.
  intros H. revert l. induction H as [|cs css Hl _ IH]; intros l; cbn [map]; split; intros Hx; inversion Hx; subst; constructor; auto.
  - destruct cs; [discriminate|]. auto.
  - apply IH. auto.
  - destruct cs; [discriminate|]. auto.
  - apply IH. auto.
Qed.
Lemma tails_length (css : list (list (pytree T))) n : Forall (fun cs => length cs = S n) css -> Forall (fun cs => length cs = n) (map (@tl _) css).
Proof. induction 1 as [|cs css Hl]; cbn; constructor; auto. destruct cs; cbn in *; lia. Qed.
Lemma map_ne {A B} (f : A -> B) l : l <> [] -> map f l <> [].
Proof. destruct l; [contradiction | discriminate]. Qed.

Lemma children_agree cs : Forall agrees cs -> forall css r, css <> [] -> Forall (fun c => length c = length cs) css -> map_children cs css = Ok r ->
  map structure r = map structure cs /\ Forall (fun c => map structure c = map structure cs) css /\
  forall i p l, Forall2 (fun c a => child_leaf c i p = Some a) css l -> exists b, op l = Ok b /\ child_leaf r i p = Some b.
Proof.
  induction 1 as [|c cs Hc _ IH]; intros css r Hne Hl H; cbn [map_children] in H.
  - injection H as <-. split; auto. split.
    + apply Forall_forall. intros x Hx. rewrite Forall_forall in Hl. specialize (Hl x Hx). destruct x; [auto | discriminate].
    + intros i p l Hf. exfalso. destruct css as [|x css]; [contradiction|]. inversion Hl; subst. destruct x; [|discriminate]. inversion Hf; subst. unfold child_leaf in *. destruct i; discriminate.
  - destruct (tree_map_many op c (map (hd c) css)) as [x|] eqn:Ex; [|discriminate]. cbn [bind] in H. destruct (map_children cs (map (@tl _) css)) as [xs|] eqn:Exs; [|discriminate].
    injection H as <-. destruct (Hc _ _ (map_ne _ _ Hne) Ex) as (Hs & Hss & Hp). destruct (IH _ _ (map_ne _ _ Hne) (tails_length _ _ Hl) Exs) as (Hs' & Hss' & Hp').
    split; [cbn; congruence|]. split.
    + clear - Hl Hss Hss'. induction Hl as [|y css Hy Hl IH]; constructor.
      * destruct y as [|y ys]; [discriminate|]. cbn in *. inversion Hss; subst. inversion Hss'; subst. congruence.
      * cbn in Hss, Hss'. inversion Hss; subst. inversion Hss'; subst. auto.
    + intros [|i] p l Hf.
      * apply (heads c css (length cs)) in Hf; auto. destruct (Hp p l Hf) as (b & Hb & Hb'). exists b. auto.
      * apply (tails css (length cs)) in Hf; auto. destruct (Hp' i p l Hf) as (b & Hb & Hb'). exists b. auto.
Qed.
Lemma all_agree h : agrees h.
Proof.
  induction h as [a|g cs IH] using pytree_ind'; intros ts t Hne H.
  - cbn [tree_map_many] in H. destruct (traverse as_leaf ts) as [l|] eqn:El; [|discriminate]. cbn [bind] in H. destruct (op l) as [b|] eqn:Eb; [|discriminate]. injection H as <-.
    apply as_leaf_all in El. subst ts. split; auto. split; [apply Forall_forall; intros x Hx; apply in_map_iff in Hx; destruct Hx as (y & <- & _); auto|].
    intros p l' Hl. apply leaves_leaf in Hl; [|destruct l; [contradiction | discriminate]]. destruct Hl as (-> & ->). exists b. auto.
  - rewrite tree_map_node in H. destruct (traverse (as_node g (length cs)) ts) as [css|] eqn:Ec; [|discriminate]. cbn [bind] in H.
    destruct (map_children cs css) as [r|] eqn:Er; [|discriminate]. injection H as <-. destruct (as_node_all _ _ _ _ Ec) as (-> & Hl).
    destruct (children_agree cs IH css r) as (Hs & Hss & Hp); auto; [destruct css; [contradiction | discriminate]|].
    split; [cbn; congruence|]. split.
    + apply Forall_forall. intros x Hx. apply in_map_iff in Hx. destruct Hx as (y & <- & Hy). rewrite Forall_forall in Hss. cbn. rewrite (Hss y Hy). auto.
    + intros p l Hf. destruct p as [|i p].
      * exfalso. destruct css as [|x css]; [contradiction|]. inversion Hf; subst. discriminate.
      * rewrite leaf_child. apply (Hp i p). clear - Hf. unfold leaves_at in Hf. remember (map (Node g) css) as ts. revert css Heqts. induction Hf; intros [|c css] He; try discriminate; constructor; injection He as -> ->; auto.
Qed.
Lemma children_succeed cs : Forall succeeds cs -> forall css, css <> [] -> Forall (fun c => map structure c = map structure cs) css ->
  (forall i p l, Forall2 (fun c a => child_leaf c i p = Some a) css l -> exists b, op l = Ok b) -> exists r, map_children cs css = Ok r.
Proof.
  induction 1 as [|c cs Hc _ IH]; intros css Hne Hl Hop; cbn [map_children]; [eauto|].
  assert (Hlen : Forall (fun x => length x = S (length cs)) css).
  { apply Forall_forall. intros x Hx. rewrite Forall_forall in Hl. specialize (Hl x Hx). apply (f_equal (@length _)) in Hl. rewrite !map_length in Hl. auto. }
  destruct (Hc (map (hd c) css)) as (x & ->).
  - apply map_ne; auto.
  - clear - Hl. induction Hl as [|y css Hy _ IH]; cbn; constructor; auto. destruct y; [discriminate|]. cbn in *. congruence.
  - intros p l Hp. apply (Hop 0 p l). apply (heads c css (length cs)); auto.
  - cbn [bind]. destruct (IH (map (@tl _) css)) as (xs & ->).
    + apply map_ne; auto.
    + clear - Hl. induction Hl as [|y css Hy _ IH]; cbn; constructor; auto. destruct y; [discriminate|]. cbn in *. congruence.
    + intros i p l Hp. apply (Hop (S i) p l). apply (tails css (length cs)); auto.
    + cbn. eauto.
Qed.
Lemma all_succeed h : succeeds h.
Proof.
  induction h as [a|g cs IH] using pytree_ind'; intros ts Hne Hs Hop.
  - assert (Hts : exists l, ts = map (fun a => Leaf a) l).
    { clear - Hs. induction Hs as [|x ts Hx _ (l & ->)]; [exists []; auto|]. destruct x as [b|]; [|discriminate]. exists (b :: l). auto. }
    destruct Hts as (l & ->). cbn [tree_map_many]. rewrite as_leaf_map. cbn [bind]. destruct (Hop [] l) as (b & ->); [|cbn; eauto].
    clear. unfold leaves_at. induction l; cbn; constructor; auto.
  - assert (Hts : exists css, ts = map (Node g) css /\ Forall (fun c => map structure c = map structure cs) css).
    { clear - Hs. induction Hs as [|x ts Hx _ (css & -> & Hc)]; [exists []; auto|]. destruct x as [|g' y]; [discriminate|]. cbn in Hx. injection Hx as -> Hy. exists (y :: css). auto. }
    destruct Hts as (css & -> & Hc). rewrite tree_map_node, as_node_map.
    2:{ apply Forall_forall. intros x Hx. rewrite Forall_forall in Hc. specialize (Hc x Hx). apply (f_equal (@length _)) in Hc. rewrite !map_length in Hc. auto. }
    cbn [bind]. destruct (children_succeed cs IH css) as (r & ->); auto; [destruct css; [contradiction | discriminate] | | cbn; eauto].
    intros i p l Hf. apply (Hop (i :: p) l). clear - Hf. unfold leaves_at. induction Hf; cbn; constructor; auto.
Qed.
End Trees.
