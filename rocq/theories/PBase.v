(* Lemmas about the preludes Py.v, Num.v and Arr.v *)
From Coq Require Import List Arith Bool Lia Permutation.
From Verif Require Import Num Py Arr.
Import ListNotations.

(* ---- results ---- *)
Lemma bind_ok {A B} (r : result A) (f : A -> result B) b :
  bind r f = Ok b <-> exists a, r = Ok a /\ f a = Ok b.
Proof.
  destruct r; simpl; split.
  - intros H; eexists; eauto.
  - intros (x & [= ->] & H); exact H.
  - discriminate.
  - intros (x & H & _); discriminate.
Qed.

Lemma assert_ok b u : assert_ b = Ok u <-> b = true.
Proof. destruct b, u; simpl; split; congruence. Qed.

Ltac bind_inv :=
  repeat match goal with
  | H : bind _ _ = Ok _ |- _ => apply bind_ok in H; destruct H as (? & ? & ?)
  | H : assert_ _ = Ok _ |- _ => apply assert_ok in H
  | H : Ok _ = Ok _ |- _ => injection H as H; try subst
  | H : Err _ = Ok _ |- _ => discriminate H
  end.

Lemma traverse_ok {A B} (f : A -> result B) l ys :
  traverse f l = Ok ys <-> Forall2 (fun x y => f x = Ok y) l ys.
Proof.
  revert ys; induction l as [|x r IH]; intros ys; simpl.
  - split; [intros [= <-]; constructor | inversion 1; auto].
  - split.
    + intros H; bind_inv. constructor; auto. apply IH; auto.
    + inversion 1; subst. rewrite H2; simpl. apply IH in H4. rewrite H4; reflexivity.
Qed.

Lemma traverse_ext {A B} (f g : A -> result B) l :
  (forall x, In x l -> f x = g x) -> traverse f l = traverse g l.
Proof.
  induction l as [|x r IH]; intros H; simpl; auto.
  rewrite H by (left; auto). destruct (g x); simpl; auto.
  rewrite IH; auto. intros; apply H; right; auto.
Qed.

Lemma traverse_map {A B D} (f : B -> result D) (g : A -> B) l :
  traverse f (map g l) = traverse (fun x => f (g x)) l.
Proof. induction l; simpl; auto. rewrite IHl; auto. Qed.

Lemma traverse_all {A B} (f : A -> result B) (g : A -> B) l :
  (forall x, In x l -> f x = Ok (g x)) -> traverse f l = Ok (map g l).
Proof.
  induction l as [|x r IH]; intros H; simpl; auto.
  rewrite H by (left; auto). simpl. rewrite IH; auto. intros; apply H; right; auto.
Qed.

Lemma traverse_app {A B} (f : A -> result B) l1 l2 :
  traverse f (l1 ++ l2) = (a <- traverse f l1 ;; b <- traverse f l2 ;; Ok (a ++ b)).
Proof.
  induction l1 as [|x r IH]; simpl.
  - destruct (traverse f l2); auto.
  - destruct (f x); simpl; auto. rewrite IH.
    destruct (traverse f r); simpl; auto. destruct (traverse f l2); simpl; auto.
Qed.

Lemma Forall2_len {A B} (R : A -> B -> Prop) l1 l2 : Forall2 R l1 l2 -> length l1 = length l2.
Proof. induction 1; simpl; auto. Qed.

Lemma traverse_length {A B} (f : A -> result B) l ys :
  traverse f l = Ok ys -> length ys = length l.
Proof. rewrite traverse_ok. intros H. symmetry. eapply Forall2_len; eauto. Qed.

Lemma foldM_app {A S} (f : S -> A -> result S) l1 l2 s :
  foldM f (l1 ++ l2) s = (s' <- foldM f l1 s ;; foldM f l2 s').
Proof.
  revert s; induction l1 as [|x r IH]; intros s; simpl; auto.
  destruct (f s x); simpl; auto.
Qed.

Lemma foldM_ext {A S} (f g : S -> A -> result S) l s :
  (forall s x, In x l -> f s x = g s x) -> foldM f l s = foldM g l s.
Proof.
  revert s; induction l as [|x r IH]; intros s H; simpl; auto.
  rewrite H by (left; auto). destruct (g s x); simpl; auto. apply IH. intros; apply H; right; auto.
Qed.

(* ---- dictionaries ---- *)
Section Dict.
Context {K V : Type} `{HK : Eqb K}.

Lemma eqb_refl k : eqb k k = true.
Proof. apply eqb_ok; auto. Qed.
Lemma eqb_neq x y : eqb x y = false <-> x <> y.
Proof.
  split.
  - intros H E. apply eqb_ok in E. congruence.
  - intros H. destruct (eqb x y) eqn:E; auto. apply eqb_ok in E; congruence.
Qed.
Lemma eqb_dec : forall x y : K, {x = y} + {x <> y}.
Proof. intros x y. destruct (eqb x y) eqn:E; [left; apply eqb_ok; auto | right; apply eqb_neq; auto]. Defined.

Lemma dict_get_in (d : dict K V) k v : dict_get d k = Some v -> In (k, v) d.
Proof.
  induction d as [|[k' v'] r IH]; simpl; [discriminate|].
  destruct (eqb k k') eqn:E; [|auto].
  apply eqb_ok in E; subst. intros [= ->]; auto.
Qed.

Lemma dict_get_none (d : dict K V) k : dict_get d k = None <-> ~ In k (map fst d).
Proof.
  induction d as [|[k' v'] r IH]; simpl; [tauto|].
  destruct (eqb k k') eqn:E.
  - apply eqb_ok in E; subst. split; [discriminate | intros H; exfalso; auto].
  - apply eqb_neq in E. rewrite IH. intuition congruence.
Qed.

Lemma dict_get_some (d : dict K V) k : In k (map fst d) <-> exists v, dict_get d k = Some v.
Proof.
  destruct (dict_get d k) eqn:E.
  - split; [eauto|]. intros _. apply dict_get_in in E. apply in_map_iff. exists (k, v); auto.
  - apply dict_get_none in E. split; [tauto | intros (v & H); discriminate].
Qed.

Lemma dict_get_nodup (d : dict K V) k v :
  NoDup (map fst d) -> (dict_get d k = Some v <-> In (k, v) d).
Proof.
  intros ND; split; [apply dict_get_in|].
  induction d as [|[k' v'] r IH]; simpl; [tauto|].
  inversion ND; subst. intros [E|Hin].
  - injection E as -> ->. rewrite eqb_refl; auto.
  - destruct (eqb k k') eqn:E; auto.
    apply eqb_ok in E; subst. exfalso; apply H1. apply in_map_iff. exists (k', v); auto.
Qed.

Lemma dict_set_keys (d : dict K V) k v :
  map fst (dict_set d k v) = if mem k (map fst d) then map fst d else map fst d ++ [k].
Proof.
  unfold mem. induction d as [|[k' v'] r IH]; simpl; auto.
  destruct (eqb k k') eqn:E; simpl; [reflexivity|].
  rewrite IH. destruct (existsb (eqb k) (map fst r)); reflexivity.
Qed.

Lemma mem_in (k : K) l : mem k l = true <-> In k l.
Proof.
  unfold mem; rewrite existsb_exists. split.
  - intros (x & Hx & E). apply eqb_ok in E; subst; auto.
  - intros H; exists k; split; auto. apply eqb_refl.
Qed.
Lemma mem_not_in (k : K) l : mem k l = false <-> ~ In k l.
Proof. rewrite <- mem_in. destruct (mem k l); split; congruence. Qed.

Lemma dict_set_fresh (d : dict K V) k v : ~ In k (map fst d) -> dict_set d k v = d ++ [(k, v)].
Proof.
  induction d as [|[k' v'] r IH]; simpl; auto.
  intros H. destruct (eqb k k') eqn:E.
  - apply eqb_ok in E; subst; exfalso; auto.
  - rewrite IH; auto.
Qed.

Lemma dict_get_set_same (d : dict K V) k v : dict_get (dict_set d k v) k = Some v.
Proof.
  induction d as [|[k' v'] r IH]; simpl; [rewrite eqb_refl; auto|].
  destruct (eqb k k') eqn:E; simpl; rewrite E; auto.
Qed.
Lemma dict_get_set_other (d : dict K V) k k' v : k <> k' -> dict_get (dict_set d k v) k' = dict_get d k'.
Proof.
  intros Hn. induction d as [|[k2 v2] r IH]; simpl.
  - destruct (eqb k' k) eqn:E; auto. apply eqb_ok in E; congruence.
  - destruct (eqb k k2) eqn:E; simpl.
    + apply eqb_ok in E; subst. destruct (eqb k' k2) eqn:E2; auto. apply eqb_ok in E2; congruence.
    + destruct (eqb k' k2); auto.
Qed.

Lemma dict_get_app (d1 d2 : dict K V) k :
  dict_get (d1 ++ d2) k = match dict_get d1 k with Some v => Some v | None => dict_get d2 k end.
Proof.
  induction d1 as [|[k' v'] r IH]; simpl; auto. destruct (eqb k k'); auto.
Qed.

Lemma dict_set_nodup (d : dict K V) k v : NoDup (map fst d) -> NoDup (map fst (dict_set d k v)).
Proof.
  intros H. rewrite dict_set_keys. destruct (mem k (map fst d)) eqn:E; auto.
  apply mem_not_in in E. apply (Permutation_NoDup (Permutation_cons_append _ _)). constructor; auto.
Qed.

Lemma dict_eqb_ok (veqb : V -> V -> bool) (d1 d2 : dict K V) :
  (forall x y, veqb x y = true <-> x = y) -> NoDup (map fst d1) -> NoDup (map fst d2) ->
  (dict_eqb veqb d1 d2 = true <-> forall k, dict_get d1 k = dict_get d2 k).
Proof.
  intros Hv N1 N2. unfold dict_eqb. rewrite andb_true_iff, Nat.eqb_eq, forallb_forall. split.
  - intros [Hl Hf].
    assert (Hin : incl (map fst d1) (map fst d2)).
    { intros k Hk. apply in_map_iff in Hk. destruct Hk as ([k0 v] & <- & Hk). simpl.
      specialize (Hf _ Hk); simpl in Hf. apply dict_get_some.
      destruct (dict_get d2 k0); [eauto | discriminate]. }
    assert (Hin2 : incl (map fst d2) (map fst d1)).
    { apply NoDup_length_incl; auto. rewrite !map_length; lia. }
    intros k. destruct (dict_get d1 k) eqn:E1.
    + apply dict_get_nodup in E1; auto. specialize (Hf _ E1); simpl in Hf.
      destruct (dict_get d2 k); [|discriminate]. apply Hv in Hf; congruence.
    + apply dict_get_none in E1. symmetry. apply dict_get_none. auto.
  - intros H. split.
    + rewrite <- (map_length fst d1), <- (map_length fst d2).
      apply Nat.le_antisymm; apply NoDup_incl_length; auto; intros k Hk;
        apply dict_get_some in Hk; destruct Hk as (v & Hk); apply dict_get_some; exists v; congruence.
    + intros [k v] Hk; simpl. apply dict_get_nodup in Hk; auto. rewrite <- H, Hk. apply Hv; auto.
Qed.

Lemma set_eqb_ok (l1 l2 : list K) : set_eqb l1 l2 = true <-> (forall k, In k l1 <-> In k l2).
Proof.
  unfold set_eqb. rewrite andb_true_iff, !forallb_forall. setoid_rewrite mem_in.
  firstorder.
Qed.
End Dict.

(* ---- slices and updates ---- *)
Section Seqs.
Context {A : Type}.

Lemma skipn_skipn' n m (l : list A) : skipn n (skipn m l) = skipn (m + n) l.
Proof.
  revert l; induction m; intros l; simpl; auto. destruct l; simpl; auto. rewrite skipn_nil; auto.
Qed.

Lemma slice_length (l : list A) a b : a <= b -> b <= length l -> length (slice l a b) = b - a.
Proof. intros. unfold slice. rewrite firstn_length, skipn_length. lia. Qed.

Lemma nth_error_slice (l : list A) a b k : k < b - a -> nth_error (slice l a b) k = nth_error l (a + k).
Proof.
  intros H. unfold slice. rewrite <- (firstn_skipn (b - a) (skipn a l)) at 1.
  assert (E : nth_error (skipn a l) k = nth_error l (a + k)).
  { clear. revert l; induction a; intros l; simpl; auto. destruct l; simpl; auto. destruct k; auto. }
  rewrite <- E.
  destruct (Nat.lt_ge_cases k (length (firstn (b - a) (skipn a l)))) as [Hk|Hk].
  - rewrite (firstn_skipn). rewrite <- (firstn_skipn (b - a) (skipn a l)) at 2.
    rewrite nth_error_app1 by auto. auto.
  - rewrite firstn_skipn. rewrite firstn_length in Hk.
    rewrite (proj2 (nth_error_None (firstn (b - a) (skipn a l)) k)) by (rewrite firstn_length; lia).
    symmetry. apply nth_error_None. lia.
Qed.

Lemma slice_app_exact (l1 l2 l3 : list A) a b :
  a = length l1 -> b = a + length l2 -> slice (l1 ++ l2 ++ l3) a b = l2.
Proof.
  intros -> ->. unfold slice. rewrite skipn_app, skipn_all, Nat.sub_diag. simpl.
  replace (length l1 + length l2 - length l1) with (length l2) by lia.
  rewrite firstn_app, Nat.sub_diag, firstn_all, firstn_O, app_nil_r. auto.
Qed.

Lemma slice_full (l : list A) n : n = length l -> slice l 0 n = l.
Proof. intros ->. unfold slice. rewrite Nat.sub_0_r, skipn_O. apply firstn_all. Qed.

Lemma list_ext (l1 l2 : list A) : (forall k, nth_error l1 k = nth_error l2 k) -> l1 = l2.
Proof.
  revert l2; induction l1 as [|x r IH]; intros [|y r2] H; auto.
  - specialize (H 0); discriminate.
  - specialize (H 0); discriminate.
  - f_equal; [specialize (H 0); simpl in H; congruence|].
    apply IH. intros k. apply (H (S k)).
Qed.

Lemma slice_ext (l1 l2 : list A) a b :
  (forall k, a <= k < b -> nth_error l1 k = nth_error l2 k) -> slice l1 a b = slice l2 a b.
Proof.
  intros H. apply list_ext. intros k.
  destruct (Nat.lt_ge_cases k (b - a)).
  - rewrite !nth_error_slice by auto. apply H; lia.
  - unfold slice. transitivity (@None A); [|symmetry]; apply nth_error_None; rewrite firstn_length; lia.
Qed.

Lemma nth_error_of_slice (l1 l2 : list A) a b k :
  slice l1 a b = slice l2 a b -> a <= k < b -> nth_error l1 k = nth_error l2 k.
Proof.
  intros H Hk. replace k with (a + (k - a)) by lia.
  rewrite <- !(nth_error_slice _ a b) by lia. rewrite H. auto.
Qed.

Lemma at_set_ok (l : list A) a b v :
  a <= b -> b <= length l -> length v = b - a ->
  exists l', at_set l a b v = Ok l' /\ length l' = length l /\ slice l' a b = v /\
  (forall k, k < a \/ b <= k -> nth_error l' k = nth_error l k).
Proof.
  intros Ha Hb Hv. unfold at_set.
  rewrite !Nat.min_l by lia. rewrite (proj2 (Nat.eqb_eq _ _) Hv).
  exists (firstn a l ++ v ++ skipn b l).
  split; [auto|]. split.
  { rewrite !app_length, firstn_length, skipn_length. lia. }
  split.
  { apply slice_app_exact. rewrite firstn_length; lia. lia. }
  intros k [Hk|Hk].
  - rewrite nth_error_app1 by (rewrite firstn_length; lia).
    rewrite <- (firstn_skipn a l) at 2. rewrite nth_error_app1; auto. rewrite firstn_length; lia.
  - rewrite nth_error_app2 by (rewrite firstn_length; lia).
    rewrite nth_error_app2 by (rewrite firstn_length; lia).
    rewrite firstn_length, Nat.min_l by lia.
    rewrite <- (firstn_skipn b l) at 2.
    rewrite nth_error_app2 by (rewrite firstn_length; lia).
    f_equal. rewrite firstn_length. lia.
Qed.

Lemma chunks_length n d (l : list A) : length (chunks n d l) = n.
Proof. revert l; induction n; intros; simpl; auto. Qed.

Lemma nth_error_chunks n d (l : list A) k :
  k < n -> nth_error (chunks n d l) k = Some (slice l (k * d) (k * d + d)).
Proof.
  revert l k; induction n; intros l k H; [lia|]. simpl.
  destruct k; simpl.
  - unfold slice. simpl. rewrite Nat.sub_0_r. auto.
  - rewrite IHn by lia. f_equal. unfold slice. rewrite skipn_skipn'.
    f_equal; try lia; f_equal; lia.
Qed.

Lemma concat_chunks n d (l : list A) : length l = n * d -> concat (chunks n d l) = l.
Proof.
  revert l; induction n; intros l H; simpl.
  - destruct l; auto; discriminate.
  - rewrite IHn by (rewrite skipn_length; simpl in H; lia). apply firstn_skipn.
Qed.

Lemma chunks_concat d (ls : list (list A)) :
  Forall (fun r => length r = d) ls -> chunks (length ls) d (concat ls) = ls.
Proof.
  induction 1 as [|r ls Hr Hls IH]; simpl; auto.
  rewrite firstn_app, Hr, Nat.sub_diag. rewrite firstn_all2, firstn_O, app_nil_r by lia.
  f_equal. rewrite skipn_app, Hr, Nat.sub_diag, skipn_all2 by lia. simpl. auto.
Qed.

Lemma concat_length_uniform d (ls : list (list A)) :
  Forall (fun r => length r = d) ls -> length (concat ls) = length ls * d.
Proof. induction 1; simpl; auto. rewrite app_length. lia. Qed.

Lemma slice_slice (l : list A) a b c d :
  a + d <= b -> c <= d -> slice (slice l a b) c d = slice l (a + c) (a + d).
Proof.
  intros. apply list_ext. intros k. destruct (Nat.lt_ge_cases k (d - c)).
  - rewrite !nth_error_slice by lia. f_equal; lia.
  - unfold slice at 1 3. transitivity (@None A); [|symmetry]; apply nth_error_None; rewrite firstn_length; lia.
Qed.

Lemma slice_concat_block d (ls : list (list A)) k :
  Forall (fun r => length r = d) ls -> k < length ls ->
  nth_error ls k = Some (slice (concat ls) (k * d) (k * d + d)).
Proof.
  intros H Hk. rewrite <- (chunks_concat d ls H) at 1. apply nth_error_chunks; auto.
Qed.
End Seqs.

Lemma gather_nth {A} (d : A) l idx k i :
  nth_error idx k = Some i -> i < length l -> nth_error (gather d l idx) k = nth_error l i.
Proof.
  intros H Hi. unfold gather. rewrite (map_nth_error _ _ _ H).
  rewrite Nat.min_l by lia. symmetry. apply nth_error_nth'; auto.
Qed.

Lemma gather_seq {A} (d : A) l a n : a + n <= length l -> gather d l (seq a n) = slice l a (a + n).
Proof.
  intros H. apply list_ext. intros k.
  destruct (Nat.lt_ge_cases k n).
  - rewrite nth_error_slice by lia. apply gather_nth; [|lia].
    rewrite nth_error_nth' with (d := 0) by (rewrite seq_length; auto). rewrite seq_nth; auto.
  - transitivity (@None A); [|symmetry]; apply nth_error_None.
    unfold gather. rewrite map_length, seq_length; lia.
    unfold slice. rewrite firstn_length. lia.
Qed.

Lemma nth_error_seq a n k : k < n -> nth_error (seq a n) k = Some (a + k).
Proof.
  intros. rewrite nth_error_nth' with (d := 0) by (rewrite seq_length; auto). rewrite seq_nth; auto.
Qed.

Lemma Forall2_nth_error {A B} (R : A -> B -> Prop) l1 l2 :
  Forall2 R l1 l2 <-> length l1 = length l2 /\
    forall k x y, nth_error l1 k = Some x -> nth_error l2 k = Some y -> R x y.
Proof.
  split.
  - induction 1; simpl; split; auto.
    + intros k; destruct k; discriminate.
    + destruct IHForall2; lia.
    + destruct IHForall2. intros [|k]; simpl; intros; [congruence | eauto].
  - revert l2; induction l1 as [|x r IH]; intros [|y r2] [Hl H]; try discriminate; constructor.
    + apply (H 0); auto.
    + apply IH. split; [simpl in Hl; lia|]. intros k. apply (H (S k)).
Qed.

Lemma filter_all_true {A} (p : A -> bool) l : (forall x, In x l -> p x = true) -> filter p l = l.
Proof.
  induction l as [|x r IH]; simpl; intros H; auto.
  rewrite H by auto. f_equal. apply IH; auto.
Qed.
