(* The triplets of the sparse Jacobian, factor by factor *)
From Coq Require Import List Arith Bool Lia Permutation.
From Verif Require Import Num Py Arr PBase MLayout SpecLayout SpecTree PLayout PTree MAssign MNoise MSparse
  MFactor MGraph SpecAssign SpecGraph PAssign PAssign2 PStack PGraph PGraph2.
Import ListNotations.

(* ---- lists ---- *)
Lemma flat_map_app_fun {A B} (F G : A -> list B) l :
  Permutation (flat_map (fun x => F x ++ G x) l) (flat_map F l ++ flat_map G l).
Proof.
  induction l as [|x l IH]; simpl; auto. rewrite <- !app_assoc. apply Permutation_app_head.
  rewrite IH. rewrite !app_assoc. apply Permutation_app_tail. apply Permutation_app_comm.
Qed.
Lemma flat_map_nil {A B} (l : list A) : flat_map (fun _ => @nil B) l = [].
Proof. induction l; simpl; auto. Qed.
Lemma flat_map_swap {A B D} (F : A -> B -> list D) la lb :
  Permutation (flat_map (fun a => flat_map (fun b => F a b) lb) la) (flat_map (fun b => flat_map (fun a => F a b) la) lb).
Proof.
  induction la as [|a la IH]; simpl.
  - rewrite flat_map_nil. auto.
  - rewrite flat_map_app_fun. apply Permutation_app_head. auto.
Qed.
Lemma flat_map_ext_in {A B} (F G : A -> list B) l : (forall x, In x l -> F x = G x) -> flat_map F l = flat_map G l.
Proof. intros H. rewrite !flat_map_concat_map. f_equal. apply map_ext_in. auto. Qed.
Lemma flat_map_perm_in {A B} (F G : A -> list B) l : (forall x, In x l -> Permutation (F x) (G x)) -> Permutation (flat_map F l) (flat_map G l).
Proof.
  induction l as [|x l IH]; simpl; intros H; auto. apply Permutation_app; [apply H; auto|]. apply IH; intros; apply H; auto.
Qed.
Lemma flat_map_flat_map {A B D} (F : A -> list B) (G : B -> list D) l :
  flat_map G (flat_map F l) = flat_map (fun x => flat_map G (F x)) l.
Proof. induction l; simpl; auto. rewrite flat_map_app, IHl. auto. Qed.
Lemma concat_map_flat {A B} (F : A -> list (list B)) l : concat (flat_map F l) = flat_map (fun x => concat (F x)) l.
Proof. induction l; simpl; auto. rewrite concat_app, IHl. auto. Qed.

Lemma combine_app {A B} (a1 a2 : list A) (b1 b2 : list B) : length a1 = length b1 ->
  combine (a1 ++ a2) (b1 ++ b2) = combine a1 b1 ++ combine a2 b2.
Proof. revert b1; induction a1; intros [|]; simpl; intros; try discriminate; f_equal; auto. Qed.
Lemma combine_flat_map {A B D} (F : A -> list B) (G : A -> list D) l :
  (forall x, In x l -> length (F x) = length (G x)) ->
  combine (flat_map F l) (flat_map G l) = flat_map (fun x => combine (F x) (G x)) l.
Proof.
  induction l as [|x l IH]; simpl; intros H; auto. rewrite combine_app by auto. f_equal. apply IH. intros; apply H; auto.
Qed.
Lemma combine_map2 {A B D} (f : A -> B) (g : A -> D) l : combine (map f l) (map g l) = map (fun x => (f x, g x)) l.
Proof. induction l; simpl; f_equal; auto. Qed.
Lemma flat_map_length_eq {A B D} (F : A -> list B) (G : A -> list D) l :
  (forall x, In x l -> length (F x) = length (G x)) -> length (flat_map F l) = length (flat_map G l).
Proof.
  induction l as [|x l IH]; simpl; intros H; auto. rewrite !app_length, IH by (intros; apply H; auto). f_equal. auto.
Qed.

(* an index list as positions of a list *)
Lemma flat_map_seq_place {A B} (F : nat -> list B) (G : A * nat -> list B) (dim : A -> nat) d off l :
  (forall x, In x l -> dim x = d) ->
  (forall n x, G (x, n * d + off) = F n) ->
  flat_map F (seq 0 (length l)) = flat_map G (place dim off l).
Proof.
  intros Hd HG.
  assert (H : forall l k, (forall x, In x l -> dim x = d) -> flat_map F (seq k (length l)) = flat_map G (place dim (k * d + off) l)).
  { clear -HG. induction l as [|x l IH]; intros k Hd; simpl; auto.
    rewrite HG. f_equal. rewrite IH by (intros; apply Hd; right; auto). f_equal. f_equal. rewrite (Hd x) by (left; auto). lia. }
  apply (H l 0). auto.
Qed.
Lemma flat_map_place {A B} (F : A -> list B) (dim : A -> nat) off l :
  flat_map F l = flat_map (fun fo => F (fst fo)) (place dim off l).
Proof. revert off; induction l; intros; simpl; f_equal; auto. Qed.
Lemma place_concat {A} (dim : A -> nat) off (ls : list (list A)) :
  place dim off (concat ls) = flat_map (fun go => place dim (snd go) (fst go)) (place (total dim) off ls).
Proof. revert off; induction ls as [|l ls IH]; intros off; simpl; auto. rewrite place_app. f_equal. apply IH. Qed.
Lemma place_in {A} (dim : A -> nat) off l x o : In (x, o) (place dim off l) -> In x l.
Proof. intros H. rewrite <- (place_fst dim off l). apply in_map_iff. exists (x, o); auto. Qed.

(* ---- matrices of triplets ---- *)
Section Trip.
Context {T : Type}.
Definition ctriples (c : coords) (vals : list T) : list (nat * nat * T) := combine (combine (c_rows c) (c_cols c)) vals.
Definition clen (c : coords) (n : nat) : Prop := length (c_rows c) = n /\ length (c_cols c) = n.

Lemma ctriples_concat cs vss : Forall2 (fun c (v : list T) => clen c (length v)) cs vss ->
  ctriples (mkCoords (concat (map c_rows cs)) (concat (map c_cols cs))) (concat vss)
  = concat (map (fun cv => ctriples (fst cv) (snd cv)) (combine cs vss)) /\
  clen (mkCoords (concat (map c_rows cs)) (concat (map c_cols cs))) (length (concat vss)).
Proof.
  unfold ctriples, clen; simpl. induction 1 as [|c v cs vss (H1 & H2) Hf (IH1 & IH2 & IH3)]; simpl; auto.
  rewrite !combine_app by (rewrite ?combine_length; lia). rewrite IH1.
  split; auto. rewrite !app_length. lia.
Qed.

(* row r, columns p, p+1, ... *)
Definition row_triples (r p : nat) (row : list T) : list (nat * nat * T) :=
  map (fun cx => (r, p + fst cx, snd cx)) (enumerate row).
(* a dense block with its corner at (o, p) *)
Definition block_triples (o p : nat) (W : list (list T)) : list (nat * nat * T) :=
  flat_map (fun rr => row_triples (o + fst rr) p (snd rr)) (enumerate W).

Lemma row_triples_eq r p d (row : list T) : length row = d ->
  combine (combine (repeat r d) (arange p d)) row = row_triples r p row.
Proof.
  intros <-. unfold row_triples, enumerate, arange.
  assert (H : forall k, combine (combine (repeat r (length row)) (seq (p + k) (length row))) row =
    map (fun cx => (r, p + fst cx, snd cx)) (combine (seq k (length row)) row)).
  { induction row as [|x row IH]; intros k; simpl; auto. f_equal. rewrite <- IH. do 3 f_equal. lia. }
  rewrite <- H. do 3 f_equal. lia.
Qed.

Lemma block_triples_eq o p d (W : list (list T)) : Forall (fun row => length row = d) W ->
  combine (combine (flat_map (fun r => repeat (r + o) d) (seq 0 (length W)))
                   (flat_map (fun _ => arange p d) (seq 0 (length W)))) (concat W) = block_triples o p W.
Proof.
  intros HW. unfold block_triples, enumerate.
  assert (H : forall k, combine (combine (flat_map (fun r => repeat (r + o) d) (seq k (length W)))
                   (flat_map (fun _ => arange p d) (seq k (length W)))) (concat W) =
     flat_map (fun rr => row_triples (o + fst rr) p (snd rr)) (combine (seq k (length W)) W)).
  { induction HW as [|row W Hr HW IH]; intros k; simpl; auto.
    rewrite combine_app by (unfold arange; rewrite repeat_length, seq_length; auto).
    rewrite combine_app by (unfold arange; rewrite combine_length, repeat_length, seq_length; lia).
    rewrite (row_triples_eq (k + o) p d row Hr), IH. do 2 f_equal. lia. }
  apply H.
Qed.

Lemma row_triples_in r p (row : list T) t : In t (row_triples r p row) <->
  exists c x, nth_error row c = Some x /\ t = (r, p + c, x).
Proof.
  unfold row_triples, enumerate. rewrite in_map_iff. split.
  - intros ([c x] & <- & Hin). simpl. exists c, x. split; auto.
    apply In_nth_error in Hin. destruct Hin as (k & Hk).
    assert (Hg : forall (l : list T) s k c x, nth_error (combine (seq s (length l)) l) k = Some (c, x) -> c = s + k /\ nth_error l k = Some x).
    { clear. induction l as [|y l IH]; intros s k c x; [destruct k; discriminate|]. destruct k; simpl.
      - intros [= <- <-]. split; [lia | auto].
      - intros H. apply IH in H. split; [lia | tauto]. }
    apply Hg in Hk. simpl in Hk. destruct Hk as [-> Hk]. auto.
  - intros (c & x & Hc & ->). exists (c, x). split; auto.
    assert (Hg : forall (l : list T) s c, nth_error l c = Some x -> In (s + c, x) (combine (seq s (length l)) l)).
    { clear. induction l as [|y l IH]; intros s c; [destruct c; discriminate|]. destruct c; simpl.
      - intros [= ->]. left. f_equal. lia.
      - intros H. right. replace (s + S c) with (S s + c) by lia. apply IH; auto. }
    apply (Hg row 0 c). auto.
Qed.

Lemma enumerate_in {A} (l : list A) c x : In (c, x) (enumerate l) <-> nth_error l c = Some x.
Proof.
  unfold enumerate. split.
  - intros Hin. apply In_nth_error in Hin. destruct Hin as (k & Hk).
    assert (Hg : forall (l : list A) s k c x, nth_error (combine (seq s (length l)) l) k = Some (c, x) -> c = s + k /\ nth_error l k = Some x).
    { clear. induction l as [|y l IH]; intros s k c x; [destruct k; discriminate|]. destruct k; simpl.
      - intros [= <- <-]. split; [lia | auto].
      - intros H. apply IH in H. split; [lia | tauto]. }
    apply Hg in Hk. simpl in Hk. destruct Hk as [-> Hk]. auto.
  - intros Hc.
    assert (Hg : forall (l : list A) s c, nth_error l c = Some x -> In (s + c, x) (combine (seq s (length l)) l)).
    { clear. induction l as [|y l IH]; intros s c; [destruct c; discriminate|]. destruct c; simpl.
      - intros [= ->]. left. f_equal. lia.
      - intros H. right. replace (s + S c) with (S s + c) by lia. apply IH; auto. }
    apply (Hg l 0 c). auto.
Qed.

Lemma block_triples_in o p (W : list (list T)) t : In t (block_triples o p W) <->
  exists r c row x, nth_error W r = Some row /\ nth_error row c = Some x /\ t = (o + r, p + c, x).
Proof.
  unfold block_triples. rewrite in_flat_map. split.
  - intros ([r row] & Hin & Ht). apply enumerate_in in Hin. apply row_triples_in in Ht.
    destruct Ht as (c & x & Hc & ->). simpl. exists r, c, row, x. auto.
  - intros (r & c & row & x & Hr & Hc & ->). exists (r, row). split; [apply enumerate_in; auto|].
    apply row_triples_in. exists c, x. auto.
Qed.
End Trip.

Section Jac.
Context {T : Type} {N : Num T}.
Variable E : env T.
Let C := e_cls E.
Variable val : var -> pytree T.
Variable r : list T.

Definition unwrap {A} (d : A) (x : result A) : A := match x with Ok y => y | Err _ => d end.
Definition part (fo : factor T * nat) : list T := slice r (snd fo) (snd fo + residual_dim (fst fo)).
Definition wjacs (fo : factor T * nat) : list (list (list T)) :=
  map (fun J => unwrap [] (whiten_jacobian (f_noise (fst fo)) J (part fo))) (jacobians_at E val (fst fo)).

Definition factor_triples (L : layout) (fo : factor T * nat) : list (nat * nat * T) :=
  flat_map (fun vW => block_triples (snd fo) (pos L (fst vW)) (snd vW)) (combine (f_vars (fst fo)) (wjacs fo)).

Definition fok (f : factor T) : Prop := factor_ok f /\ jacobian_shape_ok E val f.

Lemma wjacs_ok fo : fok (fst fo) -> snd fo + residual_dim (fst fo) <= length r ->
  whitened_jacobians_at E val (fst fo) (part fo) = Ok (wjacs fo) /\
  Forall2 (fun v W => length W = residual_dim (fst fo) /\ Forall (fun row => length row = vldim C v) W)
          (f_vars (fst fo)) (wjacs fo).
Proof.
  intros ((Hn & _) & Hj) Hb.
  assert (Hp : length (part fo) = residual_dim (fst fo)) by (unfold part; rewrite slice_length; lia).
  unfold whitened_jacobians_at, wjacs. unfold jacobian_shape_ok in Hj. fold C in Hj. revert Hj.
  generalize (jacobians_at E val (fst fo)) (f_vars (fst fo)). intros Js vs Hf.
  induction Hf as [|v J vs Js (H1 & H2) Hf (IH1 & IH2)]; simpl; auto.
  destruct (whiten_jac_ok (f_noise (fst fo)) J (part fo) (vldim C v)) as (W & EW & HW1 & HW2); auto.
  rewrite EW. cbn [bind]. rewrite IH1. cbn [bind unwrap]. split; auto.
Qed.

(* ---- one stack ---- *)
Definition slot_vals (off i : nat) (gfs : list (factor T)) : list T :=
  flat_map (fun fo => concat (nth i (wjacs fo) [])) (place residual_dim off gfs).

Lemma nth_error_parts gfs off d : (forall f, In f gfs -> residual_dim f = d) ->
  off + length gfs * d <= length r ->
  chunks (length gfs) d (slice r off (off + length gfs * d)) = map part (place residual_dim off gfs).
Proof.
  intros Hd Hb. revert off Hb. induction gfs as [|f gfs IH]; intros off Hb; simpl; auto.
  simpl in Hb. unfold part at 1. simpl. rewrite (Hd f) by (left; auto). f_equal.
  - unfold slice. rewrite firstn_firstn. f_equal. lia.
  - rewrite <- IH; [|intros; apply Hd; right; auto | lia]. f_equal. unfold slice.
    rewrite skipn_firstn_comm, skipn_skipn'. f_equal; lia.
Qed.

Lemma stack_jacobian_values_ok L gfs s a off : group_ok gfs -> is_stack E L gfs s ->
  layout_eqb (as_layout a) L = true ->
  (forall f v, In f gfs -> In v (f_vars f) -> reads E L (as_storage a) val v) ->
  (forall f, In f gfs -> fok f) -> off + gdim gfs <= length r ->
  stack_jacobian_values E s a (slice r off (off + gdim gfs)) =
    Ok (concat (map (fun i => slot_vals off i gfs) (seq 0 (gkind_slots gfs)))).
Proof.
  intros Hg Hs HL Hr Hok Hb. unfold stack_jacobian_values.
  assert (Hd : forall f, In f gfs -> residual_dim f = noise_dim (fd_noise (fs_factor s))).
  { intros f Hf. symmetry. apply (is_dim _ _ _ _ Hs); auto. }
  assert (Hgd : gdim gfs = length gfs * noise_dim (fd_noise (fs_factor s))).
  { unfold gdim. apply total_const. auto. }
  rewrite (is_num _ _ _ _ Hs). unfold reshape2. rewrite slice_length by lia.
  replace (off + gdim gfs - off) with (length gfs * noise_dim (fd_noise (fs_factor s))) by lia.
  rewrite Nat.eqb_refl. cbn [bind]. rewrite Hgd, nth_error_parts by (auto; lia).
  unfold stack_jacobians. rewrite (is_lay _ _ _ _ Hs), HL. cbn [assert_ bind].
  rewrite (stack_values_ok E L gfs s a val) by auto. cbn [bind].
  rewrite (is_num _ _ _ _ Hs).
  rewrite (map_seq_nth (fun n => e_jac E (fd_index n (fs_factor s)) (row_values n (columns val (gkind_slots gfs) gfs)))
             (jacobians_at E val)).
  2:{ intros n f Hn. rewrite (is_fac _ _ _ _ Hs n f Hn), (row_columns val gfs n f) by auto. reflexivity. }
  assert (Hhd : length (hd [] (map (jacobians_at E val) gfs)) = gkind_slots gfs).
  { destruct gfs as [|h t]; [destruct Hg; congruence|]. simpl. destruct (Hok h) as [_ Hj]; [left; auto|].
    symmetry. apply (Forall2_len _ _ _ Hj). }
  rewrite Hhd, traverse_map.
  rewrite (traverse_all _ (fun i => slot_vals off i gfs)); [reflexivity|].
  intros i Hi. apply in_seq in Hi. rewrite map_map. unfold enumerate.
  assert (Hgen : forall l k o, (forall n f, nth_error l n = Some f -> nth_error gfs (k + n) = Some f) ->
     o + total residual_dim l <= length r ->
     traverse (fun nJr => whiten_jacobian (noise_index (fst nJr) (fd_noise (fs_factor s))) (fst (snd nJr)) (snd (snd nJr)))
       (combine (seq k (length (combine (map (fun f => nth i (jacobians_at E val f) []) l) (map part (place residual_dim o l)))))
                (combine (map (fun f => nth i (jacobians_at E val f) []) l) (map part (place residual_dim o l))))
     = Ok (map (fun fo => nth i (wjacs fo) []) (place residual_dim o l))).
  { induction l as [|f l IH]; intros k o Hn Ho; simpl; auto.
    assert (Hf : nth_error gfs k = Some f) by (specialize (Hn 0 f eq_refl); rewrite Nat.add_0_r in Hn; auto).
    assert (Hfin : In f gfs) by (eapply nth_error_In; eauto).
    pose proof (is_fac _ _ _ _ Hs k f Hf) as Hfd.
    assert (Hno : noise_index k (fd_noise (fs_factor s)) = f_noise f).
    { change (noise_index k (fd_noise (fs_factor s))) with (fd_noise (fd_index k (fs_factor s))). rewrite Hfd. auto. }
    rewrite Hno. simpl in Ho.
    destruct (wjacs_ok (f, o)) as (EW & HW); [apply Hok; auto | simpl; lia|]. simpl in EW, HW.
    unfold whitened_jacobians_at in EW. apply traverse_ok in EW.
    assert (Hli : i < length (jacobians_at E val f)).
    { destruct (Hok f Hfin) as [_ Hj]. apply Forall2_len in Hj. rewrite <- Hj.
      destruct Hg as (Hne & Hk & _). destruct gfs as [|h t]; [congruence|]. simpl in Hi.
      rewrite (same_kind_vars f h); [lia|]. apply Hk; auto. left; auto. }
    assert (Hwi : whiten_jacobian (f_noise f) (nth i (jacobians_at E val f) []) (part (f, o)) = Ok (nth i (wjacs (f, o)) [])).
    { apply (proj2 (proj1 (Forall2_nth_error _ _ _) EW) i).
      - apply nth_error_nth'. auto.
      - apply nth_error_nth'. unfold wjacs. rewrite map_length. auto. }
    rewrite Hwi. cbn [bind]. rewrite IH; [reflexivity| |lia].
    intros n g Hgn. rewrite <- (Hn (S n) g Hgn). f_equal. lia. }
  rewrite (Hgen gfs 0 off); auto.
  cbn [bind]. unfold slot_vals. f_equal. rewrite flat_map_concat_map.
  generalize (place residual_dim off gfs). induction l; simpl; auto. rewrite concat_app. f_equal. auto.
Qed.

(* ---- the triplets of one group ---- *)
Variable Lloc : layout.

Lemma slot_W gfs i off f o : group_ok gfs -> (forall f, In f gfs -> fok f) -> off + gdim gfs <= length r ->
  i < gkind_slots gfs -> In (f, o) (place residual_dim off gfs) ->
  length (nth i (wjacs (f, o)) []) = gkind_dim gfs /\
  Forall (fun row => length row = local_dim (C (slot_type i gfs))) (nth i (wjacs (f, o)) []) /\
  residual_dim f = gkind_dim gfs /\ length (f_vars f) = gkind_slots gfs /\ length (wjacs (f, o)) = gkind_slots gfs.
Proof.
  intros Hg Hok Hb Hi Hin. pose proof (place_in _ _ _ _ _ Hin) as Hf.
  apply place_bound in Hin. pose proof (slot_ty gfs f i Hg Hf Hi) as Hty.
  destruct (wjacs_ok (f, o)) as (_ & HW); [apply Hok; auto | simpl; unfold gdim in Hb; lia|]. cbn [fst] in HW.
  destruct Hg as (Hne & Hk & _). destruct gfs as [|h t] eqn:Eg; [congruence|].
  assert (Hs : same_kind f h) by (apply Hk; auto; left; auto).
  pose proof (same_kind_dim _ _ Hs) as Hd. pose proof (same_kind_vars _ _ Hs) as Hv.
  simpl gkind_dim. simpl gkind_slots in *. pose proof (Forall2_len _ _ _ HW) as HlW.
  assert (Hx : length (nth i (wjacs (f, o)) []) = residual_dim f /\
    Forall (fun row => length row = vldim C (slot i f)) (nth i (wjacs (f, o)) [])).
  { apply (proj2 (proj1 (Forall2_nth_error _ _ _) HW) i); [unfold slot; apply nth_error_nth'; lia | apply nth_error_nth'; lia]. }
  destruct Hx as [Hx1 Hx2]. rewrite <- Hty. split; [lia|]. split; [exact Hx2|]. split; [auto|]. split; lia.
Qed.

Lemma flat_repeat_len {A} (d n : nat) (F : nat -> list A) k : (forall x, length (F x) = d) -> length (flat_map F (seq k n)) = n * d.
Proof. intros H. revert k; induction n; intros k; simpl; auto. rewrite app_length, H, IHn. auto. Qed.

Lemma slot_triples gfs off i : group_ok gfs -> (forall f, In f gfs -> fok f) -> off + gdim gfs <= length r ->
  i < gkind_slots gfs -> forall c, nth_error (group_coords E Lloc gfs off) i = Some c ->
  ctriples c (slot_vals off i gfs) =
    flat_map (fun fo => block_triples (snd fo) (pos Lloc (slot i (fst fo))) (nth i (wjacs fo) [])) (place residual_dim off gfs) /\
  clen c (length (slot_vals off i gfs)).
Proof.
  intros Hg Hok Hb Hi c Hc. unfold group_coords in Hc. rewrite nth_error_map, nth_error_seq in Hc by auto.
  simpl in Hc. injection Hc as <-. unfold ctriples, clen. cbn [c_rows c_cols].
  set (d := gkind_dim gfs). set (vd := local_dim (C (slot_type i gfs))).
  assert (HW : forall fo, In fo (place residual_dim off gfs) ->
    length (nth i (wjacs fo) []) = d /\ Forall (fun row => length row = vd) (nth i (wjacs fo) []) /\ vldim C (slot i (fst fo)) = vd).
  { intros [f o] Hin. destruct (slot_W gfs i off f o Hg Hok Hb Hi Hin) as (H1 & H2 & _).
    split; auto. split; auto. unfold vldim, vd. f_equal. f_equal. apply slot_ty; auto. eapply place_in; eauto. }
  assert (Hrows : flat_map (fun n => flat_map (fun r0 => repeat (n * d + r0 + off) vd) (seq 0 d)) (seq 0 (length gfs)) =
    flat_map (fun fo => flat_map (fun r0 => repeat (r0 + snd fo) vd) (seq 0 d)) (place residual_dim off gfs)).
  { apply (flat_map_seq_place _ (fun fo => flat_map (fun r0 => repeat (r0 + snd fo) vd) (seq 0 d)) residual_dim d off gfs).
    - intros f Hf. destruct Hg as (Hne & Hk & _). destruct gfs as [|h t]; [congruence|]. apply same_kind_dim. apply Hk; auto. left; auto.
    - intros n f. simpl. apply flat_map_ext. intros r0. f_equal. lia. }
  assert (Hcols : flat_map (fun f => flat_map (fun _ => arange (pos Lloc (slot i f)) (vldim C (slot i f))) (seq 0 d)) gfs =
    flat_map (fun fo => flat_map (fun _ : nat => arange (pos Lloc (slot i (fst fo))) vd) (seq 0 d)) (place residual_dim off gfs)).
  { rewrite (flat_map_place _ residual_dim off gfs). apply flat_map_ext_in. intros fo Hfo. cbn beta.
    destruct (HW fo Hfo) as (_ & _ & ->). auto. }
  fold C. fold d vd. rewrite Hrows, Hcols. unfold slot_vals.
  assert (L1 : forall fo : factor T * nat, length (flat_map (fun r0 => repeat (r0 + snd fo) vd) (seq 0 d)) = d * vd).
  { intros fo. apply flat_repeat_len. intros; apply repeat_length. }
  assert (L2 : forall fo : factor T * nat, length (flat_map (fun _ : nat => arange (pos Lloc (slot i (fst fo))) vd) (seq 0 d)) = d * vd).
  { intros fo. apply flat_repeat_len. intros; apply seq_length. }
  assert (L3 : forall fo, In fo (place residual_dim off gfs) -> length (concat (nth i (wjacs fo) [])) = d * vd).
  { intros fo Hfo. destruct (HW fo Hfo) as (H1 & H2 & _). rewrite (concat_length_uniform vd) by auto. lia. }
  split; [|split].
  - rewrite combine_flat_map by (intros; rewrite L1, L2; auto).
    rewrite combine_flat_map by (intros; rewrite combine_length, L1, L2, L3 by auto; lia).
    apply flat_map_ext_in. intros fo Hfo. destruct (HW fo Hfo) as (H1 & H2 & _). rewrite <- H1. apply block_triples_eq. auto.
  - apply flat_map_length_eq. intros. rewrite L1, L3; auto.
  - apply flat_map_length_eq. intros. rewrite L2, L3; auto.
Qed.

Lemma flat_map_slots {D} (F : var -> list (list T) -> list D) (f : factor T) Ws k :
  length (f_vars f) = k -> length Ws = k ->
  flat_map (fun i => F (slot i f) (nth i Ws [])) (seq 0 k) = flat_map (fun vW => F (fst vW) (snd vW)) (combine (f_vars f) Ws).
Proof.
  intros H1 H2. rewrite !flat_map_concat_map. f_equal.
  assert (Hc : combine (f_vars f) Ws = map (fun i => (slot i f, nth i Ws [])) (seq 0 k)).
  { rewrite <- combine_map2. f_equal; [rewrite <- H1 | rewrite <- H2]; symmetry; apply map_nth_seq. }
  rewrite Hc, map_map. auto.
Qed.

Lemma group_triples gfs off : group_ok gfs -> (forall f, In f gfs -> fok f) -> off + gdim gfs <= length r ->
  Forall2 (fun c (v : list T) => clen c (length v)) (group_coords E Lloc gfs off) (map (fun i => slot_vals off i gfs) (seq 0 (gkind_slots gfs))) /\
  Permutation (concat (map (fun cv => ctriples (fst cv) (snd cv))
                 (combine (group_coords E Lloc gfs off) (map (fun i => slot_vals off i gfs) (seq 0 (gkind_slots gfs))))))
              (flat_map (factor_triples Lloc) (place residual_dim off gfs)).
Proof.
  intros Hg Hok Hb.
  assert (Hall : forall i c, i < gkind_slots gfs -> nth_error (group_coords E Lloc gfs off) i = Some c ->
     ctriples c (slot_vals off i gfs) =
      flat_map (fun fo => block_triples (snd fo) (pos Lloc (slot i (fst fo))) (nth i (wjacs fo) [])) (place residual_dim off gfs) /\
     clen c (length (slot_vals off i gfs))) by (intros; apply slot_triples; auto).
  assert (Hlen : length (group_coords E Lloc gfs off) = gkind_slots gfs) by (unfold group_coords; rewrite map_length, seq_length; auto).
  split.
  - apply Forall2_nth_error. rewrite map_length, seq_length. split; auto.
    intros k c v Hc Hv. assert (Hk : k < gkind_slots gfs) by (rewrite <- Hlen; apply nth_error_Some; congruence).
    rewrite nth_error_map, nth_error_seq in Hv by auto. simpl in Hv. injection Hv as <-. apply Hall; auto.
  - assert (Hmap : map (fun cv => ctriples (fst cv) (snd cv))
                 (combine (group_coords E Lloc gfs off) (map (fun i => slot_vals off i gfs) (seq 0 (gkind_slots gfs)))) =
      map (fun i => flat_map (fun fo => block_triples (snd fo) (pos Lloc (slot i (fst fo))) (nth i (wjacs fo) [])) (place residual_dim off gfs))
          (seq 0 (gkind_slots gfs))).
    { unfold group_coords. rewrite combine_map2, map_map. apply map_ext_in. intros i Hi. apply in_seq in Hi. cbn [fst snd].
      apply (Hall i); [lia|]. unfold group_coords. rewrite nth_error_map, nth_error_seq by lia. auto. }
    rewrite Hmap, <- flat_map_concat_map, flat_map_swap. apply flat_map_perm_in. intros [f o] Hfo.
    destruct (Nat.eq_dec (gkind_slots gfs) 0) as [Hz|Hz].
    + assert (Hf : In f gfs) by (eapply place_in; eauto).
      assert (f_vars f = []).
      { destruct Hg as (Hne & Hk & _). destruct gfs as [|h t]; [congruence|]. simpl in Hz.
        assert (Hs : same_kind f h) by (apply Hk; auto; left; auto). apply same_kind_vars in Hs. destruct (f_vars f); auto. simpl in Hs. lia. }
      rewrite Hz. simpl. unfold factor_triples. cbn [fst]. rewrite H. simpl. auto.
    + destruct (slot_W gfs 0 off f o Hg Hok Hb) as (_ & _ & _ & H1 & H2); auto; [lia|].
      apply eq_perm. cbn [fst snd]. unfold factor_triples. cbn [fst snd].
      apply (flat_map_slots (fun v W => block_triples o (pos Lloc v) W) f (wjacs (f, o)) (gkind_slots gfs)); auto.
Qed.
End Jac.

Section Whole.
Context {T : Type} {N : Num T}.
Variable E : env T.
Let C := e_cls E.

Lemma jacobian_fold fs a r val : (forall f, In f fs -> factor_ok f) -> (forall f, In f fs -> jacobian_shape_ok E val f) ->
  layout_eqb (as_layout a) (graph_layout E fs false) = true ->
  (forall v, In v (mentioned fs) -> reads E (graph_layout E fs false) (as_storage a) val v) ->
  forall gs stacks vals off, (forall gfs, In gfs gs -> In gfs (kgroups fs)) ->
  Forall2 (is_stack E (graph_layout E fs false)) gs stacks -> off + total gdim gs <= length r ->
  foldM (jacobian_step E a r) stacks (vals, off) =
    Ok (vals ++ concat (flat_map (fun go => map (fun i => slot_vals E val r (snd go) i (fst go)) (seq 0 (gkind_slots (fst go)))) (place gdim off gs)),
        off + total gdim gs).
Proof.
  intros Hok Hj HL Hr gs stacks vals off Hin H. revert vals off Hin.
  induction H as [|gfs s gs ss Hs Hf IH]; intros vals off Hin Hb; simpl.
  - rewrite app_nil_r, Nat.add_0_r. auto.
  - assert (Hg : In gfs (kgroups fs)) by (apply Hin; left; auto). simpl in Hb.
    rewrite (stack_dim E _ gfs s Hs).
    rewrite (stack_jacobian_values_ok E val r (graph_layout E fs false) gfs s a off); auto.
    + cbn [bind]. rewrite IH; [|intros; apply Hin; right; auto | unfold total in *; lia].
      rewrite concat_app, app_assoc, Nat.add_assoc. auto.
    + apply (kgroups_ok fs Hok); auto.
    + apply (reads_group E fs a val gfs); auto.
    + intros f Hf'. split; [apply Hok | apply Hj]; eapply kgroups_in; eauto.
    + unfold total in *; lia.
Qed.

Lemma total_kgroups (fs : list (factor T)) : total gdim (kgroups fs) = total residual_dim fs.
Proof. rewrite <- (total_perm _ _ _ (kgroups_perm fs)), total_concat. auto. Qed.

Definition graph_vals (val : var -> pytree T) (r : list T) (fs : list (factor T)) : list (list T) :=
  flat_map (fun go => map (fun i => slot_vals E val r (snd go) i (fst go)) (seq 0 (gkind_slots (fst go)))) (place gdim 0 (kgroups fs)).

Lemma all_triples fs r val : (forall f, In f fs -> factor_ok f) -> (forall f, In f fs -> jacobian_shape_ok E val f) ->
  length r = total residual_dim fs ->
  Forall2 (fun c (v : list T) => clen c (length v)) (all_coords E fs) (graph_vals val r fs) /\
  Permutation (concat (map (fun cv => ctriples (fst cv) (snd cv)) (combine (all_coords E fs) (graph_vals val r fs))))
     (flat_map (factor_triples E val r (graph_layout E fs true)) (place residual_dim 0 (concat (kgroups fs)))).
Proof.
  intros Hok Hj Hlen. set (Lloc := graph_layout E fs true).
  assert (Hgr : forall gfs off, In (gfs, off) (place gdim 0 (kgroups fs)) ->
    group_ok gfs /\ (forall f, In f gfs -> fok E val f) /\ off + gdim gfs <= length r).
  { intros gfs off Hin. pose proof (place_in _ _ _ _ _ Hin) as Hgin. apply place_bound in Hin. split; [|split].
    - apply (kgroups_ok fs Hok); auto.
    - intros f Hf. split; [apply Hok | apply Hj]; eapply kgroups_in; eauto.
    - rewrite total_kgroups in Hin. unfold gdim in *. rewrite Hlen. lia. }
  rewrite place_concat. unfold all_coords, graph_vals. rewrite <- flat_map_concat_map. fold Lloc.
  change (place (total residual_dim) 0 (kgroups fs)) with (place gdim 0 (kgroups fs)).
  revert Hgr. generalize (place gdim 0 (kgroups fs)). induction l as [|[gfs off] l IH]; intros Hgr; simpl; [auto|].
  destruct (Hgr gfs off) as (H1 & H2 & H3); [left; auto|].
  destruct (group_triples E val r Lloc gfs off H1 H2 H3) as (G1 & G2).
  destruct IH as (I1 & I2); [intros; apply Hgr; right; auto|]. split.
  - apply Forall2_app; auto.
  - rewrite combine_app by (apply (Forall2_len _ _ _ G1)). rewrite map_app, concat_app, flat_map_app.
    apply Permutation_app; auto.
Qed.

Lemma jacobian_ok fs g a r val : (forall f, In f fs -> factor_ok f) -> (forall f, In f fs -> jacobian_shape_ok E val f) ->
  is_graph E fs g -> assigns E fs a val -> length r = total residual_dim fs -> total residual_dim fs <> 0 ->
  exists vals, compute_whitened_residual_jacobian E g a r =
      Ok (mkCoo vals (g_coords g) (total residual_dim fs, l_dim (graph_layout E fs true))) /\
    clen (g_coords g) (length vals) /\
    Permutation (ctriples (g_coords g) vals)
      (flat_map (factor_triples E val r (graph_layout E fs true)) (place residual_dim 0 (concat (kgroups fs)))).
Proof.
  intros Hok Hj Hg Ha Hlen Hpos. destruct (setup E fs a val Ha) as (a' & Ea & HL & Hr).
  exists (concat (graph_vals val r fs)). split.
  { unfold compute_whitened_residual_jacobian. rewrite (ig_layout _ _ _ Hg), Ea. cbn [bind].
    rewrite (jacobian_fold fs a' r val Hok Hj HL Hr (kgroups fs)); auto; [|apply (ig_stacks _ _ _ Hg) | rewrite total_kgroups; lia].
    cbn [bind]. rewrite total_kgroups, (ig_dim _ _ _ Hg). simpl. rewrite Nat.eqb_refl.
    destruct (Nat.eqb_spec (total residual_dim fs) 0); [lia|]. cbn [negb assert_ bind].
    rewrite (ig_local _ _ _ Hg). reflexivity. }
  destruct (all_triples fs r val Hok Hj Hlen) as (HF1 & HF2). destruct (ctriples_concat _ _ HF1) as (H1 & H2).
  rewrite (ig_coords _ _ _ Hg). split; auto. rewrite H1. auto.
Qed.
End Whole.
