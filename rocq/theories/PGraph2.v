(* Residual vector of a graph, and the triplets of its sparse Jacobian *)
From Coq Require Import List Arith Bool Lia Permutation.
From Verif Require Import Num Py Arr PBase MLayout SpecLayout SpecTree PLayout PTree MAssign MNoise MSparse
  MFactor MGraph SpecAssign SpecGraph PAssign PAssign2 PStack PGraph.
Import ListNotations.

Lemma filter_comm {A} (p q : A -> bool) l : filter p (filter q l) = filter q (filter p l).
Proof.
  induction l as [|x l IH]; simpl; auto.
  destruct (q x) eqn:Q, (p x) eqn:P; simpl; rewrite ?Q, ?P, ?IH; auto.
Qed.
Lemma filter_and_drop {A} (p q : A -> bool) l : (forall x, In x l -> p x = true -> q x = true) -> filter p (filter q l) = filter p l.
Proof.
  induction l as [|x l IH]; simpl; intros H; auto.
  assert (IHl : filter p (filter q l) = filter p l) by (apply IH; intros; apply H; auto).
  destruct (q x) eqn:Q; simpl; rewrite IHl; auto.
  destruct (p x) eqn:P; auto. rewrite (H x) in Q; auto. discriminate.
Qed.
Lemma filter_len {A} (p : A -> bool) l : length (filter p l) <= length l.
Proof. induction l; simpl; auto. destruct (p a); simpl; lia. Qed.
Lemma zipw_len {A B D} (f : A -> B -> D) l1 l2 : length l1 = length l2 -> length (zipw f l1 l2) = length l1.
Proof. revert l2; induction l1; intros [|]; simpl; intros; try discriminate; auto. Qed.

Section G.
Context {T : Type} {N : Num T}.

(* ---- groups ---- *)
Lemma firsts_filter {K} `{Eqb K} (p : K -> bool) (l : list K) : firsts (filter p l) = filter p (firsts l).
Proof.
  induction l as [|x l IH]; simpl; auto. destruct (p x) eqn:P; simpl.
  - f_equal. rewrite IH. apply filter_comm.
  - rewrite IH. symmetry. rewrite filter_comm. rewrite filter_all_true; auto.
    intros y Hy. apply filter_In in Hy. destruct Hy as [_ Hy].
    destruct (eqb y x) eqn:Eq; auto. apply eqb_ok in Eq. congruence.
Qed.

Lemma filter_map_comm {A B} (f : A -> B) (p : B -> bool) l : filter p (map f l) = map f (filter (fun x => p (f x)) l).
Proof. induction l; simpl; auto. destruct (p (f a)); simpl; f_equal; auto. Qed.

Lemma kgroups_cons (f : factor T) fs :
  kgroups (f :: fs) = (f :: filter (fun g => eqb (group_key g) (group_key f)) fs)
                      :: kgroups (filter (fun g => negb (eqb (group_key g) (group_key f))) fs).
Proof.
  unfold kgroups. cbn [map firsts]. f_equal.
  - cbn [filter]. rewrite eqb_refl. auto.
  - rewrite <- filter_map_comm with (p := fun k => negb (eqb k (group_key f))).
    rewrite firsts_filter. apply map_ext_in. intros k Hk. apply filter_In in Hk. destruct Hk as [_ Hk].
    cbn [filter]. destruct (eqb (group_key f) k) eqn:Eq.
    + apply eqb_ok in Eq. subst k. rewrite eqb_refl in Hk. discriminate.
    + symmetry. apply filter_and_drop. intros x _ Hx. apply eqb_ok in Hx. rewrite Hx. auto.
Qed.

Lemma split_kind_filter (f : factor T) fs :
  split_kind f fs (filter (fun g => eqb (group_key g) (group_key f)) fs)
                  (filter (fun g => negb (eqb (group_key g) (group_key f))) fs).
Proof.
  induction fs as [|g fs IH]; cbn [filter]; [constructor|].
  destruct (eqb (group_key g) (group_key f)) eqn:Eq; cbn [negb]; constructor; auto.
  - apply eqb_ok in Eq. apply group_key_kind. auto.
  - intros Hk. apply group_key_kind in Hk. symmetry in Hk. apply eqb_ok in Hk. congruence.
Qed.

Lemma groups_of_kgroups (fs : list (factor T)) : groups_of fs (kgroups fs).
Proof.
  remember (length fs) as n eqn:Hn. assert (Hle : length fs <= n) by lia. clear Hn. revert fs Hle.
  induction n as [|n IH]; intros [|f fs] Hle; simpl in Hle; try lia; try constructor.
  rewrite kgroups_cons. econstructor; [apply split_kind_filter|]. apply IH.
  pose proof (filter_len (fun g => negb (eqb (group_key g) (group_key f))) fs). lia.
Qed.

Lemma split_kind_det (f : factor T) fs i1 o1 : split_kind f fs i1 o1 -> forall i2 o2, split_kind f fs i2 o2 -> i1 = i2 /\ o1 = o2.
Proof.
  induction 1; intros i2 o2 H2; inversion H2; subst; try tauto;
    match goal with [ h : split_kind f fs ?a ?b |- _ ] => destruct (IHsplit_kind _ _ h); subst; auto end.
Qed.
Lemma groups_of_det (fs : list (factor T)) g1 : groups_of fs g1 -> forall g2, groups_of fs g2 -> g1 = g2.
Proof.
  induction 1 as [|f fs ins outs gs Hs Hg IH]; intros g2 H2; inversion H2; subst; auto.
  match goal with [ h : split_kind f fs ?a ?b |- _ ] => destruct (split_kind_det f fs ins outs Hs _ _ h); subst end.
  f_equal. auto.
Qed.
Lemma groups_of_iff (fs : list (factor T)) gs : groups_of fs gs <-> gs = kgroups fs.
Proof. split; [intros H; eapply groups_of_det; eauto; apply groups_of_kgroups | intros ->; apply groups_of_kgroups]. Qed.

(* ---- lengths of whitened vectors and matrices ---- *)
Lemma mvec_len (m : list (list T)) x : length (mvec m x) = length m.
Proof. apply map_length. Qed.

Lemma scalar_ok (d : arr T) : arr_ok d = true -> a_shape d = [] -> exists x, scalar d = Ok x.
Proof.
  unfold arr_ok, scalar. intros H1 H2. apply Nat.eqb_eq in H1. rewrite H2 in *. simpl in H1.
  destruct (a_data d) as [|x [|]]; try discriminate. eauto.
Qed.

Lemma whiten_ok (n : noise T) r : noise_ok n -> length r = noise_dim n ->
  exists w, whiten_residual n r = Ok w /\ length w = noise_dim n.
Proof.
  revert r; induction n as [W|D|w IH d]; simpl; intros r.
  - intros [Ha (k & Hk)] Hr. rewrite Hk in *. simpl in Hr. rewrite Hr, Nat.eqb_refl.
    eexists; split; [reflexivity|]. rewrite mvec_len, chunks_length. auto.
  - intros [Ha (k & Hk)] Hr. rewrite Hk in *. simpl in Hr. rewrite Hr.
    rewrite (proj2 (shape_eqb_ok [k] [k]) eq_refl).
    cbn [assert_ bind]. eexists; split; [reflexivity|]. unfold vmul.
    apply Nat.eqb_eq in Ha. rewrite Hk in Ha. simpl in Ha. rewrite zipw_len; simpl; lia.
  - intros (Hn & Ha & Hs) Hr. destruct (IH r Hn Hr) as (w' & -> & Hw). cbn [bind].
    destruct (scalar_ok d Ha Hs) as (x & ->). cbn [bind]. eexists; split; [reflexivity|].
    destruct (nltb (vnorm w') x); rewrite ?map_length; auto.
Qed.

Lemma whiten_jac_ok (n : noise T) J r d : noise_ok n -> length r = noise_dim n -> length J = noise_dim n ->
  Forall (fun row => length row = d) J ->
  exists W, whiten_jacobian n J r = Ok W /\ length W = noise_dim n /\ Forall (fun row => length row = d) W.
Proof.
  induction n as [W|D|w IH dl]; simpl.
  - intros [Ha (k & Hk)] Hr HJ Hd. rewrite Hk in *. simpl in HJ. rewrite HJ, Nat.eqb_refl.
    eexists; split; [reflexivity|]. unfold mmul. rewrite map_length, chunks_length. split; auto.
    destruct k; simpl; [constructor|]. destruct J as [|row J]; [discriminate|]. inversion Hd; subst.
    rewrite Forall_forall. intros x Hx. assert (Hc : ncols (row :: J) = length row) by auto. rewrite Hc in Hx.
    destruct Hx as [<-|Hx]; [rewrite map_length, seq_length; auto|].
    apply in_map_iff in Hx. destruct Hx as (y & <- & _). rewrite map_length, seq_length. auto.
  - intros [Ha (k & Hk)] Hr HJ Hd. rewrite Hk in *. simpl in Hr, HJ. rewrite Hr, HJ.
    rewrite (proj2 (shape_eqb_ok [k] [k]) eq_refl). cbn [andb assert_ bind]. eexists; split; [reflexivity|].
    apply Nat.eqb_eq in Ha. rewrite Hk in Ha. simpl in Ha. rewrite zipw_len by lia. split; [simpl; lia|].
    assert (Hgen : forall (l : list T) J', Forall (fun row => length row = d) J' ->
      Forall (fun row => length row = d) (zipw (fun x row => map (nmul x) row) l J')).
    { induction l as [|x l IHl]; intros J' HJ'; simpl; [constructor|]. destruct HJ'; constructor; auto. rewrite map_length; auto. }
    apply Hgen; auto.
  - intros (Hn & Ha & Hs) Hr HJ Hd. destruct (IH Hn Hr HJ Hd) as (W & -> & HW & HWd). cbn [bind].
    destruct (scalar_ok dl Ha Hs) as (x & ->). cbn [bind]. eexists; split; [reflexivity|].
    destruct (nltb (vnorm r) x); auto. rewrite map_length. split; auto.
    rewrite Forall_forall in *. intros row Hrow. apply in_map_iff in Hrow. destruct Hrow as (y & <- & Hy).
    rewrite map_length; auto.
Qed.

Variable E : env T.
Let C := e_cls E.

Lemma whitened_at_ok val (f : factor T) : noise_ok (f_noise f) -> residual_shape_ok E val f ->
  exists w, whitened_at E val f = Ok w /\ length w = residual_dim f.
Proof. intros Hn Hr. apply whiten_ok; auto. Qed.

(* ---- from any assignment to the graph's layout ---- *)
Lemma setup fs a val : assigns E fs a val ->
  exists a', update_storage_layout C a (graph_layout E fs false) = Ok a' /\
    layout_eqb (as_layout a') (graph_layout E fs false) = true /\
    forall v, In v (mentioned fs) -> reads E (graph_layout E fs false) (as_storage a') val v.
Proof.
  intros (vs & Hwf & Hvs & Hval).
  destruct (update_ok C vs (mentioned fs) false a Hwf (mentioned_nodup fs) Hvs) as (a' & Ea & Hsl & Hcase & Hlen & Hb).
  exists a'. split; [exact Ea|]. pose proof Hwf as (NDv & HLa & Hst).
  assert (NDm := mentioned_nodup fs).
  split.
  - apply layout_eqb_ok; auto.
    + destruct Hcase as [->| ->]; [rewrite HLa|]; apply make_layout_nodup; auto.
    + apply make_layout_nodup; auto.
  - intros v Hv. apply Hvs in Hv as Hv'. pose proof (Hval v Hv') as Hg.
    pose proof (proj1 (lay_index_mem C (mentioned fs) false NDm v) Hv) as (i & Hi).
    unfold reads, pos. fold C. unfold graph_layout in *. fold C. rewrite Hi. split.
    + rewrite Hlen. pose proof (lay_bound C (mentioned fs) false NDm v i Hi) as Hbd. exact Hbd.
    + fold C in Hg. rewrite (get_value_block C vs a v Hwf Hv') in Hg. rewrite <- Hb in Hg by auto.
      unfold block in Hg. rewrite Hi in Hg. rewrite lay_local in Hg by auto. exact Hg.
Qed.

(* ---- C15 ---- *)
Lemma traverse_concat {A B} (F : A -> result B) (ls : list (list A)) ws :
  traverse F (concat ls) = Ok ws ->
  exists wss, traverse (traverse F) ls = Ok wss /\ concat wss = ws.
Proof.
  revert ws; induction ls as [|l ls IH]; simpl; intros ws.
  - intros [= <-]. exists []; auto.
  - rewrite traverse_app. destruct (traverse F l) as [w|]; simpl; [|discriminate].
    destruct (traverse F (concat ls)) as [w2|]; simpl; [|discriminate]. intros [= <-].
    destruct (IH w2 eq_refl) as (wss & -> & <-). simpl. eexists; split; reflexivity.
Qed.

Lemma traverse_stacks {S G B} (R : G -> S -> Prop) (F : S -> result B) (H : G -> result B) gs ss :
  Forall2 R gs ss -> (forall g s, In g gs -> R g s -> F s = H g) -> traverse F ss = traverse H gs.
Proof.
  induction 1 as [|g s gs ss Hr Hf IH]; intros Heq; simpl; auto.
  rewrite (Heq g s) by (auto; left; auto). rewrite IH; auto. intros; apply Heq; auto. right; auto.
Qed.

Lemma reads_group fs a' val gfs : (forall v, In v (mentioned fs) -> reads E (graph_layout E fs false) (as_storage a') val v) ->
  In gfs (kgroups fs) -> forall f v, In f gfs -> In v (f_vars f) -> reads E (graph_layout E fs false) (as_storage a') val v.
Proof. intros Hr Hg f v Hf Hv. apply Hr. apply mentioned_in. exists f. split; auto. eapply kgroups_in; eauto. Qed.

Lemma kgroups_nil fs : kgroups fs = [] -> fs = ([] : list (factor T)).
Proof. destruct fs; auto. rewrite kgroups_cons. discriminate. Qed.

Lemma residual_vector_ok fs g a val : (forall f, In f fs -> factor_ok f) -> fs <> [] -> is_graph E fs g -> assigns E fs a val ->
  (forall f, In f fs -> residual_shape_ok E val f) ->
  exists ws, traverse (whitened_at E val) (concat (kgroups fs)) = Ok ws /\
    compute_whitened_residual_vector E g a = Ok (concat ws).
Proof.
  intros Hok Hne Hg Ha Hsh. destruct (setup fs a val Ha) as (a' & Ea & HL & Hr).
  assert (Hw : forall f, In f (concat (kgroups fs)) -> exists w, whitened_at E val f = Ok w /\ length w = residual_dim f).
  { intros f Hf. apply (Permutation_in _ (kgroups_perm fs)) in Hf. apply whitened_at_ok; [apply Hok; auto | auto]. }
  assert (Hws : forall l, (forall f, In f l -> exists w, whitened_at E val f = Ok w /\ length w = residual_dim f) ->
    exists ws, traverse (whitened_at E val) l = Ok ws /\ length (concat ws) = total residual_dim l).
  { clear. induction l as [|f l IH]; simpl; intros H; [exists []; auto|].
    destruct (H f) as (w & Ew & Hlw); [left; auto|]. rewrite Ew. cbn [bind].
    destruct IH as (ws & -> & Hl); [intros; apply H; right; auto|]. cbn [bind].
    eexists; split; [reflexivity|]. simpl. rewrite app_length. lia. }
  destruct (Hws _ Hw) as (ws & Ews & Hlen). exists ws. split; auto.
  unfold compute_whitened_residual_vector. fold C. rewrite (ig_layout _ _ _ Hg), Ea. cbn [bind].
  rewrite (traverse_stacks (is_stack E (graph_layout E fs false)) _
            (fun gfs => w <- traverse (whitened_at E val) gfs ;; Ok (concat w)) (kgroups fs) (g_stacks g) (ig_stacks _ _ _ Hg)).
  2:{ intros gfs s Hgin Hs. apply (stack_whitened_ok E (graph_layout E fs false) gfs s a' val); auto.
      - apply (kgroups_ok fs Hok); auto.
      - apply reads_group; auto. }
  destruct (traverse_concat _ _ _ Ews) as (wss & Et & Ec).
  assert (Et2 : traverse (fun gfs => w <- traverse (whitened_at E val) gfs ;; Ok (concat w)) (kgroups fs) = Ok (map (@concat T) wss)).
  { clear -Et. revert wss Et. generalize (kgroups fs). induction l as [|x l IH]; simpl; intros wss.
    - intros [= <-]; auto.
    - destruct (traverse (whitened_at E val) x); simpl; [|discriminate].
      destruct (traverse (traverse (whitened_at E val)) l); simpl in *; [|discriminate]. intros [= <-].
      rewrite (IH a0 eq_refl); auto. }
  rewrite Et2. cbn [bind].
  assert (Hcc : concat (map (@concat T) wss) = concat ws).
  { rewrite <- Ec. clear. induction wss; simpl; auto. rewrite concat_app, IHwss. auto. }
  assert (Hcat : concatenate (map (@concat T) wss) = Ok (concat ws)).
  { unfold concatenate. rewrite Hcc. destruct wss; [|reflexivity]. exfalso.
    apply traverse_length in Et. destruct (kgroups fs) eqn:Ek; [|discriminate]. apply kgroups_nil in Ek. auto. }
  rewrite Hcat. cbn [bind]. rewrite (ig_dim _ _ _ Hg), Hlen, (total_perm _ _ _ (kgroups_perm fs)), Nat.eqb_refl. reflexivity.
Qed.
End G.
