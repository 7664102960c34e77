(* Coordinates of the sparse Jacobian, its action on a vector, cost, layout independence. *)
From Coq Require Import List Arith Bool Lia Permutation Reals Sorting.Sorted.
From Verif Require Import Num NumR Py Arr MLayout MAssign MNoise MSparse MFactor MGraph SpecLayout SpecTree SpecAssign SpecGraph SpecSparse.
From Verif Require Import PBase PLayout PTree PAssign PAssign2 PAssign3 PStack PGraph PGraph2 PJac PVec PSparse.
Import ListNotations.

(* ---- lists ---- *)
Lemma NoDup_app_disj {A} (l1 l2 : list A) : NoDup l1 -> NoDup l2 -> (forall x, In x l1 -> ~ In x l2) -> NoDup (l1 ++ l2).
Proof.
  induction l1 as [|x l1 IH]; simpl; intros H1 H2 Hd; auto. inversion H1; subst. constructor.
  - rewrite in_app_iff. intros [H|H]; [auto | apply (Hd x); auto].
  - apply IH; auto.
Qed.

Lemma NoDup_flat_map {A B} (F : A -> list B) l : (forall x, In x l -> NoDup (F x)) ->
  ForallOrdPairs (fun x y => forall b, In b (F x) -> ~ In b (F y)) l -> NoDup (flat_map F l).
Proof.
  intros H1 H2. induction H2 as [|x l Hx Hl IH]; simpl; [constructor|].
  apply NoDup_app_disj; [apply H1; left; auto | apply IH; intros; apply H1; right; auto |].
  intros b Hb Hc. apply in_flat_map in Hc. destruct Hc as (y & Hy & Hc).
  rewrite Forall_forall in Hx. apply (Hx y Hy b); auto.
Qed.

Lemma NoDup_ordpairs {A} (l : list A) : NoDup l -> ForallOrdPairs (fun x y => x <> y) l.
Proof. induction 1; constructor; auto. rewrite Forall_forall. intros y Hy ->. auto. Qed.

Lemma ordpairs_impl {A} (P Q : A -> A -> Prop) l : (forall x y, In x l -> In y l -> P x y -> Q x y) ->
  ForallOrdPairs P l -> ForallOrdPairs Q l.
Proof.
  intros H Hl. induction Hl as [|x l Hx Hl IH]; constructor.
  - rewrite Forall_forall in *. intros y Hy. apply H; [left; auto | right; auto | auto].
  - apply IH. intros; apply H; auto; right; auto.
Qed.

Lemma place_ordpairs {A} (dim : A -> nat) i l :
  ForallOrdPairs (fun x y => snd x + dim (fst x) <= snd y) (place dim i l).
Proof.
  revert i; induction l as [|x l IH]; intros i; simpl; constructor; auto.
  rewrite Forall_forall. intros [y o] Hy. apply place_bound in Hy. simpl. lia.
Qed.

(* ---- coordinates ---- *)
(* the cells of a dense block with its corner at (o, p) *)
Definition cells (o rd p ld : nat) : list (nat * nat) :=
  flat_map (fun r => map (fun c => (o + r, p + c)) (seq 0 ld)) (seq 0 rd).

Lemma cells_in o rd p ld x : In x (cells o rd p ld) <-> exists r c, r < rd /\ c < ld /\ x = (o + r, p + c).
Proof.
  unfold cells. rewrite in_flat_map. split.
  - intros (r & Hr & Hx). apply in_map_iff in Hx. destruct Hx as (c & <- & Hc).
    apply in_seq in Hr, Hc. exists r, c. repeat split; lia.
  - intros (r & c & Hr & Hc & ->). exists r. split; [apply in_seq; lia|]. apply in_map_iff. exists c.
    split; auto. apply in_seq; lia.
Qed.

Lemma cells_nodup o rd p ld : NoDup (cells o rd p ld).
Proof.
  apply NoDup_flat_map.
  - intros r _. apply FinFun.Injective_map_NoDup; [|apply seq_NoDup]. intros a b H. injection H; intros; lia.
  - eapply ordpairs_impl; [|apply NoDup_ordpairs, seq_NoDup]. intros x y _ _ Hne b Hb Hc.
    apply in_map_iff in Hb, Hc. destruct Hb as (c1 & <- & _), Hc as (c2 & H & _). cbv beta in Hne. injection H; intros; lia.
Qed.

Lemma block_cells {T} o p ld (W : list (list T)) : Forall (fun row => length row = ld) W ->
  map fst (block_triples o p W) = cells o (length W) p ld.
Proof.
  intros HW. unfold block_triples, cells, enumerate.
  assert (H : forall k, map fst (flat_map (fun rr => row_triples (o + fst rr) p (snd rr)) (combine (seq k (length W)) W)) =
    flat_map (fun r => map (fun c => (o + r, p + c)) (seq 0 ld)) (seq k (length W))).
  { induction HW as [|row W Hr HW IH]; intros k; simpl; auto. rewrite map_app, IH. f_equal.
    unfold row_triples, enumerate. rewrite map_map, Hr.
    assert (Hg : forall s, map (fun x => fst (o + k, p + fst x, snd x)) (combine (seq s ld) row) = map (fun c => (o + k, p + c)) (seq s ld)).
    { clear - Hr. revert ld Hr; induction row as [|y row IH]; intros ld <-; simpl; auto. intros s. f_equal. apply IH; auto. }
    apply Hg. }
  apply H.
Qed.

Section Coords.
Context {T : Type} {N : Num T}.
Variable E : env T.
Let C := e_cls E.

(* the cells a factor placed at row o occupies *)
Definition factor_cells (L : layout) (fo : factor T * nat) : list (nat * nat) :=
  flat_map (fun v => cells (snd fo) (residual_dim (fst fo)) (pos L v) (vldim C v)) (f_vars (fst fo)).

Lemma factor_triples_cells val r L fo : fok E val (fst fo) -> snd fo + residual_dim (fst fo) <= length r ->
  map fst (factor_triples E val r L fo) = factor_cells L fo.
Proof.
  intros Hf Hb. destruct (wjacs_ok E val r fo Hf Hb) as (_ & Hw). unfold factor_triples, factor_cells. fold C in Hw.
  revert Hw. generalize (f_vars (fst fo)) (wjacs E val r fo). induction 1 as [|v W vs Ws (H1 & H2) Hw IH]; simpl; auto.
  rewrite map_app, IH. f_equal. rewrite (block_cells _ _ (vldim C v)), H1; auto.
Qed.

End Coords.

Section Coords2.
Context {T : Type} {N : Num T}.
Variable E : env T.
Let C := e_cls E.
(* the same classes with constant zero Jacobians of the right shape *)
Definition zero_env : env T := mkEnv (e_cls E) (e_res E)
  (fun fd _ => map (fun t => repeat (repeat n0 (local_dim (C t))) (noise_dim (fd_noise fd))) (fd_types fd)).

Lemma zero_shape val f : jacobian_shape_ok zero_env val f.
Proof.
  unfold jacobian_shape_ok, jacobians_at. simpl. unfold anonymize; simpl.
  induction (f_vars f) as [|v vs IH]; simpl; constructor; auto.
  rewrite repeat_length. split; auto. rewrite Forall_forall. intros row Hr. apply repeat_spec in Hr. subst.
  rewrite repeat_length. auto.
Qed.

Lemma combine_fst {A B} (l1 : list A) (l2 : list B) : length l1 = length l2 -> map fst (combine l1 l2) = l1.
Proof. revert l2; induction l1; intros [|]; simpl; intros; try discriminate; auto. f_equal; auto. Qed.

Lemma coords_perm fs g : (forall f, In f fs -> factor_ok f) -> is_graph E fs g ->
  length (c_rows (g_coords g)) = length (c_cols (g_coords g)) /\
  Permutation (combine (c_rows (g_coords g)) (c_cols (g_coords g)))
    (flat_map (factor_cells E (graph_layout E fs true)) (place residual_dim 0 (concat (kgroups fs)))).
Proof.
  intros Hok Hg. rewrite (ig_coords _ _ _ Hg).
  set (r := @vzero T N (total residual_dim fs)). set (val := fun _ : var => @Node T 0 []).
  destruct (all_triples zero_env fs r val Hok (fun f _ => zero_shape val f)) as (HF1 & HF2); [apply vzero_length|].
  destruct (ctriples_concat _ _ HF1) as (H1 & (H2 & H3)).
  change (all_coords zero_env fs) with (all_coords E fs) in *.
  split; [congruence|].
  rewrite <- H1 in HF2. apply (Permutation_map fst) in HF2.
  unfold ctriples in HF2. rewrite combine_fst in HF2 by (rewrite combine_length; simpl in *; lia).
  cbn [c_rows c_cols] in *. rewrite HF2. clear HF2.
  assert (Hin : forall fo, In fo (place residual_dim 0 (concat (kgroups fs))) -> fok zero_env val (fst fo) /\ snd fo + residual_dim (fst fo) <= length r).
  { intros [f o] Hin. pose proof (place_in _ _ _ _ _ Hin) as Hf. apply place_bound in Hin. simpl.
    split; [split; [|apply zero_shape]|].
    - apply Hok. eapply Permutation_in; [apply kgroups_perm|]; auto.
    - unfold r. rewrite vzero_length, <- (total_perm _ _ _ (kgroups_perm fs)). lia. }
  assert (Hmf : forall l, (forall fo, In fo l -> fok zero_env val (fst fo) /\ snd fo + residual_dim (fst fo) <= length r) ->
    map fst (flat_map (factor_triples zero_env val r (graph_layout zero_env fs true)) l) = flat_map (factor_cells E (graph_layout E fs true)) l).
  { clear Hin. induction l as [|fo l IH]; simpl; intros Hl; auto. rewrite map_app, IH by auto. f_equal.
    destruct (Hl fo (or_introl eq_refl)) as (Ha & Hb).
    exact (factor_triples_cells zero_env val r (graph_layout zero_env fs true) fo Ha Hb). }
  rewrite (Hmf _ Hin). auto.
Qed.

Lemma pos_bound fs v : In v (mentioned fs) -> pos (graph_layout E fs true) v + vldim C v <= l_dim (graph_layout E fs true).
Proof.
  intros Hv. pose proof (mentioned_nodup fs) as ND.
  pose proof (proj1 (lay_index_mem C (mentioned fs) true ND v) Hv) as (i & Hi).
  unfold pos, graph_layout. fold C. rewrite Hi. exact (lay_bound C (mentioned fs) true ND v i Hi).
Qed.

Lemma pos_disjoint fs v w : In v (mentioned fs) -> In w (mentioned fs) -> v <> w ->
  let L := graph_layout E fs true in pos L v + vldim C v <= pos L w \/ pos L w + vldim C w <= pos L v.
Proof.
  intros Hv Hw Hne. pose proof (mentioned_nodup fs) as ND.
  pose proof (proj1 (lay_index_mem C (mentioned fs) true ND v) Hv) as (i & Hi).
  pose proof (proj1 (lay_index_mem C (mentioned fs) true ND w) Hw) as (j & Hj).
  unfold pos, graph_layout. fold C. rewrite Hi, Hj. exact (lay_disjoint C (mentioned fs) true ND v i w j Hi Hj Hne).
Qed.

Lemma placed (fs : list (factor T)) f o : In (f, o) (place residual_dim 0 (concat (kgroups fs))) -> In f fs /\ o + residual_dim f <= total residual_dim fs.
Proof.
  intros Hin. pose proof (place_in _ _ _ _ _ Hin) as Hf. apply place_bound in Hin. split.
  - eapply Permutation_in; [apply kgroups_perm|]; auto.
  - rewrite <- (total_perm _ _ _ (kgroups_perm fs)). lia.
Qed.

Lemma coords_range fs g : (forall f, In f fs -> factor_ok f) -> is_graph E fs g ->
  Forall (fun rc => fst rc < g_residual_dim g /\ snd rc < l_dim (g_local_layout g))
         (combine (c_rows (g_coords g)) (c_cols (g_coords g))).
Proof.
  intros Hok Hg. destruct (coords_perm fs g Hok Hg) as (_ & Hp). rewrite (ig_dim _ _ _ Hg), (ig_local _ _ _ Hg).
  eapply Permutation_Forall; [symmetry; exact Hp|]. rewrite Forall_forall. intros x Hx.
  apply in_flat_map in Hx. destruct Hx as ([f o] & Hin & Hx). apply placed in Hin.
  apply in_flat_map in Hx. destruct Hx as (v & Hv & Hx). apply cells_in in Hx. destruct Hx as (r & c & Hr & Hc & ->).
  simpl in *. fold C in Hc. pose proof (pos_bound fs v) as Hb. split; [lia|].
  assert (In v (mentioned fs)) by (apply mentioned_in; exists f; tauto). specialize (Hb H). lia.
Qed.

Lemma coords_distinct fs g : (forall f, In f fs -> factor_ok f) -> is_graph E fs g ->
  (forall f, In f fs -> NoDup (f_vars f)) -> NoDup (combine (c_rows (g_coords g)) (c_cols (g_coords g))).
Proof.
  intros Hok Hg HN. destruct (coords_perm fs g Hok Hg) as (_ & Hp).
  eapply Permutation_NoDup; [symmetry; exact Hp|]. apply NoDup_flat_map.
  - intros [f o] Hin. apply placed in Hin. apply NoDup_flat_map; [intros; apply cells_nodup|].
    eapply ordpairs_impl; [|apply NoDup_ordpairs, HN, Hin]. simpl. intros v w Hv Hw Hne b Hb Hc.
    apply cells_in in Hb, Hc. destruct Hb as (r & c & H1 & H2 & ->), Hc as (r' & c' & H3 & H4 & H). injection H; intros. fold C in H2, H4.
    assert (Hd := pos_disjoint fs v w). simpl in Hd. destruct Hd; auto; try (apply mentioned_in; exists f; tauto); lia.
  - eapply ordpairs_impl; [|apply place_ordpairs]. intros [f o] [f' o'] H1 H2 Hle b Hb Hc. simpl in Hle.
    apply in_flat_map in Hb, Hc. destruct Hb as (v & _ & Hb), Hc as (w & _ & Hc). apply cells_in in Hb, Hc.
    destruct Hb as (r & c & Hr & _ & ->), Hc as (r' & c' & _ & _ & H). injection H; simpl in *; intros; lia.
Qed.

Lemma NoDup_app_l {A} (l1 l2 : list A) : NoDup (l1 ++ l2) -> NoDup l1 /\ NoDup l2 /\ forall x, In x l1 -> ~ In x l2.
Proof.
  induction l1 as [|y l1 IH]; simpl; intros H; [repeat split; auto; constructor|]. inversion H; subst.
  destruct (IH H3) as (Ha & Hb & Hc). rewrite in_app_iff in H2. repeat split; auto; [constructor; tauto|].
  intros x [<-|Hx]; [tauto | apply Hc; auto].
Qed.

Lemma NoDup_flat_map_inv {A B} (F : A -> list B) l x : NoDup (flat_map F l) -> In x l -> NoDup (F x).
Proof.
  induction l as [|y l IH]; simpl; [tauto|]. intros H Hx. apply NoDup_app_l in H. destruct H as (Ha & Hb & _).
  destruct Hx as [<-|Hx]; auto.
Qed.

Lemma NoDup_flat_map_count {A B} (dec : forall x y : A, {x = y} + {x <> y}) (F : A -> list B) l x b :
  NoDup (flat_map F l) -> In b (F x) -> count_occ dec l x <= 1.
Proof.
  induction l as [|y l IH]; simpl; [lia|]. intros H Hb. apply NoDup_app_l in H. destruct H as (_ & H2 & H3).
  destruct (dec y x) as [->|]; [|auto]. destruct (in_dec dec x l) as [Hx|Hx].
  - exfalso. apply (H3 b Hb). apply in_flat_map. exists x; auto.
  - apply (count_occ_not_In dec) in Hx. lia.
Qed.

Lemma coords_repeated fs g f v : (forall f, In f fs -> factor_ok f) -> is_graph E fs g ->
  In f fs -> 2 <= count_occ eqb_dec (f_vars f) v -> 0 < residual_dim f -> 0 < vldim C v ->
  ~ NoDup (combine (c_rows (g_coords g)) (c_cols (g_coords g))).
Proof.
  intros Hok Hg Hf Hc Hr Hl ND. destruct (coords_perm fs g Hok Hg) as (_ & Hp).
  apply (Permutation_NoDup Hp) in ND. clear Hp.
  assert (Hin : exists o, In (f, o) (place residual_dim 0 (concat (kgroups fs)))).
  { apply (Permutation_in _ (Permutation_sym (kgroups_perm fs))) in Hf.
    rewrite <- (place_fst residual_dim 0) in Hf. apply in_map_iff in Hf. destruct Hf as ([f' o] & <- & H). eauto. }
  destruct Hin as (o & Hin). apply (NoDup_flat_map_inv _ _ _ ND) in Hin. unfold factor_cells in Hin. simpl in Hin.
  apply (NoDup_flat_map_count eqb_dec _ _ v (o + 0, pos (graph_layout E fs true) v + 0)) in Hin; [lia|].
  apply cells_in. exists 0, 0. fold C. auto.
Qed.

Lemma combine_forall {A B} (P : A -> Prop) (Q : B -> Prop) (l1 : list A) l2 : length l1 = length l2 ->
  Forall (fun ab => P (fst ab) /\ Q (snd ab)) (combine l1 l2) -> Forall P l1 /\ Forall Q l2.
Proof.
  revert l2; induction l1; intros [|]; simpl; intros Hl; try discriminate; auto. intros H; inversion H; subst.
  destruct (IHl1 l); auto. simpl in *. intuition.
Qed.

Lemma jacobian_coo_ok fs g a r val : (forall f, In f fs -> factor_ok f) -> (forall f, In f fs -> jacobian_shape_ok E val f) ->
  is_graph E fs g -> assigns E fs a val -> length r = total residual_dim fs -> total residual_dim fs <> 0 ->
  exists A, compute_whitened_residual_jacobian E g a r = Ok A /\ coo_ok A /\
    m_shape A = (total residual_dim fs, l_dim (graph_layout E fs true)) /\ m_coords A = g_coords g /\
    Permutation (triples A)
      (flat_map (factor_triples E val r (graph_layout E fs true)) (place residual_dim 0 (concat (kgroups fs)))).
Proof.
  intros Hok Hj Hg Ha Hlen Hpos.
  destruct (jacobian_ok E fs g a r val Hok Hj Hg Ha Hlen Hpos) as (vals & EA & (Hl1 & Hl2) & HP).
  eexists. split; [exact EA|]. split; [|split; [reflexivity | split; [reflexivity | exact HP]]].
  pose proof (coords_range fs g Hok Hg) as Hr. rewrite (ig_dim _ _ _ Hg), (ig_local _ _ _ Hg) in Hr.
  apply (combine_forall (fun r => r < total residual_dim fs) (fun c => c < l_dim (graph_layout E fs true))) in Hr; [|congruence]. unfold coo_ok; simpl. tauto.
Qed.
End Coords2.
