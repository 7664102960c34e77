(* Graphs of same-kind factors over the same variables compile to the same key *)
From Coq Require Import List Arith Bool Lia.
From Verif Require Import Num Py Arr PBase MLayout SpecLayout SpecTree PLayout PTree MAssign MNoise MSparse
  MFactor MGraph MMisc MJit SpecAssign SpecGraph SpecJit PAssign PAssign2 PStack PGraph PJit.
Import ListNotations.

Section Shapes.
Context {T : Type} {N : Num T}.

Lemma traverse_len {A B} (f : A -> result B) l : forall r, traverse f l = Ok r -> length r = length l.
Proof.
  induction l as [|x l IH]; simpl; intros r H; [injection H as <-; auto|].
  destruct (f x); simpl in H; [|discriminate]. destruct (traverse f l); simpl in H; [|discriminate].
  injection H as <-. simpl. f_equal. apply IH; auto.
Qed.

Lemma arr_stack_shape (l : list (arr T)) s st : Forall (fun b => a_shape b = s) l -> arr_stack l = Ok st ->
  a_shape st = length l :: s.
Proof.
  intros H E. unfold arr_stack in E. destruct l as [|a r]; [discriminate|].
  inversion H; subst. destruct (forallb _ _); [|discriminate]. injection E as <-. reflexivity.
Qed.

Lemma stack_children_shape n cs : Forall (fun h => forall (ts : list (pytree T)) t, length ts = n -> Forall (same_shape h) ts -> tree_stack h ts = Ok t ->
    structure t = structure h /\ map a_shape (leaves t) = map (cons n) (map a_shape (leaves h))) cs ->
  forall css r, length css = n -> Forall (fun ds => Forall2 same_shape cs ds) css -> stack_children cs css = Ok r ->
    map structure r = map structure cs /\ map a_shape (flat_map leaves r) = map (cons n) (map a_shape (flat_map leaves cs)).
Proof.
  induction 1 as [|c cs Hc Hcs IH]; intros css r Hn Hf H; simpl in H.
  - injection H as <-. auto.
  - destruct (tree_stack c (map (hd c) css)) as [x|] eqn:Ex; simpl in H; [|discriminate].
    destruct (stack_children cs (map (@tl _) css)) as [xs|] eqn:Exs; simpl in H; [|discriminate]. injection H as <-.
    destruct (Hc (map (hd c) css) x) as [H1 H2]; auto.
    + rewrite map_length. auto.
    + rewrite Forall_map. eapply Forall_impl; [|exact Hf]. intros ds Hds. inversion Hds; subst. auto.
    + destruct (IH (map (@tl _) css) xs) as [H3 H4]; auto.
      * rewrite map_length. auto.
      * rewrite Forall_map. eapply Forall_impl; [|exact Hf]. intros ds Hds. inversion Hds; subst. auto.
      * simpl. rewrite !map_app, H1, H2, H3, H4. auto.
Qed.

Lemma tree_stack_shape (h : pytree T) : forall ts t, Forall (same_shape h) ts -> tree_stack h ts = Ok t ->
  structure t = structure h /\ map a_shape (leaves t) = map (cons (length ts)) (map a_shape (leaves h)).
Proof.
  induction h as [a|g cs IH] using pytree_ind'; intros ts t H E.
  - simpl in E. destruct (traverse as_leaf ts) as [l|] eqn:El; simpl in E; [|discriminate].
    destruct (arr_stack l) as [st|] eqn:Est; simpl in E; [|discriminate]. injection E as <-.
    split; auto. simpl. rewrite <- (traverse_len _ _ _ El). f_equal.
    apply arr_stack_shape; auto. clear Est. revert l El. induction H as [|t r H1 Hr IHr]; intros l El; simpl in El.
    + injection El as <-. auto.
    + destruct t as [b|]; simpl in El; [|discriminate]. destruct (traverse as_leaf r) as [l'|]; simpl in El; [|discriminate].
      injection El as <-. constructor; auto. destruct H1 as [_ H1]. simpl in H1. congruence.
  - rewrite tree_stack_node in E. destruct (traverse (as_node g (length cs)) ts) as [css|] eqn:Ec; simpl in E; [|discriminate].
    destruct (stack_children cs css) as [r|] eqn:Er; simpl in E; [|discriminate]. injection E as <-.
    pose proof (traverse_len _ _ _ Ec) as Hlen.
    assert (Hf : Forall (fun ds => Forall2 same_shape cs ds) css).
    { clear Er IH Hlen. revert css Ec. induction H as [|t r' H1 Hr IHr]; intros css Ec; cbn [traverse] in Ec; [injection Ec as <-; auto|].
      apply same_shape_node in H1. destruct H1 as (ds & -> & Hds). cbn [as_node] in Ec.
      rewrite Nat.eqb_refl, <- (Forall2_len _ _ _ Hds), Nat.eqb_refl in Ec. simpl in Ec.
      destruct (traverse (as_node g (length cs)) r') as [css'|]; simpl in Ec; [|discriminate]. injection Ec as <-.
      constructor; auto. }
    destruct (stack_children_shape (length ts) cs) with (css := css) (r := r) as [H1 H2]; auto.
    + eapply Forall_impl; [|exact IH]. intros h Hh ts' t' Hl Hs Ht. rewrite <- Hl. apply Hh; auto.
    + simpl. rewrite H1. auto.
Qed.

Lemma noise_stack_shape (h : noise T) : forall ns s, Forall (noise_like h) ns -> noise_stack h ns = Ok s ->
  noise_structure s = noise_structure h /\ map a_shape (noise_leaves s) = map (cons (length ns)) (map a_shape (noise_leaves h)).
Proof.
  induction h as [W|D|w IH d]; intros ns s H E; cbn [noise_stack] in E.
  - destruct (traverse as_gaussian ns) as [l|] eqn:El; simpl in E; [|discriminate].
    destruct (arr_stack l) as [st|] eqn:Est; simpl in E; [|discriminate]. injection E as <-.
    split; auto. simpl. rewrite <- (traverse_len _ _ _ El). f_equal. apply arr_stack_shape; auto.
    clear Est. revert l El. induction H as [|n r H1 Hr IHr]; intros l El; simpl in El; [injection El as <-; auto|].
    destruct n; simpl in El; try discriminate. destruct (traverse as_gaussian r); simpl in El; [|discriminate].
    injection El as <-. constructor; auto. destruct H1 as [_ H1]. simpl in H1. congruence.
  - destruct (traverse as_diag ns) as [l|] eqn:El; simpl in E; [|discriminate].
    destruct (arr_stack l) as [st|] eqn:Est; simpl in E; [|discriminate]. injection E as <-.
    split; auto. simpl. rewrite <- (traverse_len _ _ _ El). f_equal. apply arr_stack_shape; auto.
    clear Est. revert l El. induction H as [|n r H1 Hr IHr]; intros l El; simpl in El; [injection El as <-; auto|].
    destruct n; simpl in El; try discriminate. destruct (traverse as_diag r); simpl in El; [|discriminate].
    injection El as <-. constructor; auto. destruct H1 as [_ H1]. simpl in H1. congruence.
  - destruct (traverse as_huber ns) as [l|] eqn:El; simpl in E; [|discriminate].
    destruct (noise_stack w (map fst l)) as [ws|] eqn:Ew; simpl in E; [|discriminate].
    destruct (arr_stack (map snd l)) as [st|] eqn:Est; simpl in E; [|discriminate]. injection E as <-.
    assert (Hl : Forall (fun p => noise_like w (fst p)) l /\ Forall (fun p => a_shape (snd p) = a_shape d) l).
    { clear Ew Est. revert l El. induction H as [|n r H1 Hr IHr]; intros l El; simpl in El; [injection El as <-; auto|].
      apply noise_like_huber in H1. destruct H1 as (w' & d' & -> & Hw & Hd). simpl in El.
      destruct (traverse as_huber r) as [l'|]; simpl in El; [|discriminate]. injection El as <-.
      destruct (IHr l' eq_refl). split; constructor; auto. }
    destruct Hl as [Hl1 Hl2].
    destruct (IH (map fst l) ws) as [H1 H2]; auto; [rewrite Forall_map; auto|].
    simpl. rewrite H1. split; auto. rewrite !map_app, H2. rewrite map_length, (traverse_len _ _ _ El). f_equal.
    simpl. f_equal. rewrite <- (traverse_len _ _ _ El), <- (map_length snd l). apply arr_stack_shape; auto. rewrite Forall_map; auto.
Qed.

Lemma fd_stack_shape (h : factor T) r fd : Forall (same_kind h) (h :: r) -> fd_stack (map anonymize (h :: r)) = Ok fd ->
  fd_cls fd = f_cls h /\ fd_types fd = map v_ty (f_vars h) /\ noise_structure (fd_noise fd) = noise_structure (f_noise h) /\
  map structure (fd_params fd) = map structure (f_params h) /\
  map a_shape (noise_leaves (fd_noise fd) ++ flat_map leaves (fd_params fd)) =
    map (cons (S (length r))) (map a_shape (noise_leaves (f_noise h) ++ flat_map leaves (f_params h))).
Proof.
  intros H E. unfold fd_stack in E. cbn [map] in E. destruct (forallb _ _); [|discriminate].
  match type of E with bind ?x _ = _ => destruct x as [ns|] eqn:En end; simpl in E; [|discriminate].
  match type of E with bind ?x _ = _ => destruct x as [t|] eqn:Et end; simpl in E; [|discriminate].
  change (noise_stack (f_noise h) (map fd_noise (map anonymize (h :: r))) = Ok ns) in En.
  change (tree_stack (Node 0 (f_params h)) (map (fun fd => Node 0 (fd_params fd)) (map anonymize (h :: r))) = Ok t) in Et.
  apply noise_stack_shape in En.
  2:{ rewrite map_map. cbn [anonymize fd_noise]. rewrite Forall_map. eapply Forall_impl; [|exact H].
      intros f (_ & _ & H3 & H4 & _). split; auto. }
  apply tree_stack_shape in Et.
  2:{ rewrite map_map. cbn [anonymize fd_params]. rewrite Forall_map. eapply Forall_impl; [|exact H].
      intros f (_ & _ & _ & _ & H5). apply same_shape_node_intro; auto. }
  destruct t as [a|g ps]; [discriminate|]. injection E as <-. cbn [fd_cls fd_types fd_noise fd_params].
  destruct En as [En1 En2], Et as [Et1 Et2]. rewrite !map_length in *. cbn [structure] in Et1.
  injection Et1 as _ Et1. repeat split; auto. rewrite !map_app. f_equal; auto.
Qed.
End Shapes.

Lemma F2_app {A B} (R : A -> B -> Prop) a a' b b' : Forall2 R a a' -> Forall2 R b b' -> Forall2 R (a ++ b) (a' ++ b').
Proof. apply Forall2_app. Qed.
Lemma F2_map_eq {A A' B} (R : A -> A' -> Prop) (f : A -> B) (g : A' -> B) l l' :
  (forall x y, R x y -> f x = g y) -> Forall2 R l l' -> map f l = map g l'.
Proof. intros H. induction 1; simpl; f_equal; auto. Qed.
Lemma F2_impl {A B} (R S : A -> B -> Prop) l l' : (forall x y, R x y -> S x y) -> Forall2 R l l' -> Forall2 S l l'.
Proof. intros H. induction 1; constructor; auto. Qed.
Lemma F2_flat_map {A A' B} (R : A -> A' -> Prop) (f : A -> list B) (g : A' -> list B) l l' :
  (forall x y, R x y -> f x = g y) -> Forall2 R l l' -> flat_map f l = flat_map g l'.
Proof. intros H. induction 1; simpl; f_equal; auto. Qed.
Lemma F2_flat_len {A A' B D} (R : A -> A' -> Prop) (f : A -> list B) (g : A' -> list D) l l' :
  (forall x y, R x y -> length (f x) = length (g y)) -> Forall2 R l l' -> length (flat_map f l) = length (flat_map g l').
Proof. intros H. induction 1; simpl; auto. rewrite !app_length. f_equal; auto. Qed.
Lemma flat_len_const {A B D} (f : A -> list B) (g : A -> list D) l :
  (forall x, length (f x) = length (g x)) -> length (flat_map f l) = length (flat_map g l).
Proof. intros H. induction l; simpl; auto. rewrite !app_length. f_equal; auto. Qed.

Section Graphs.
Context {T : Type} {N : Num T}.
Variable E : env T.
Let C := e_cls E.
Variable R : factor T -> factor T -> Prop.
Hypothesis R_kind : forall f g, R f g -> same_kind f g.

Lemma kgroups_rel fs fs' : Forall2 R fs fs' -> Forall2 (Forall2 R) (kgroups fs) (kgroups fs').
Proof.
  intros H. unfold kgroups.
  assert (Hk : map group_key fs = map group_key fs').
  { apply (F2_map_eq R); auto. intros f g Hfg. apply group_key_kind; auto. }
  rewrite <- Hk. induction (firsts (map group_key fs)) as [|k ks IH]; simpl; constructor; auto.
  clear -H R_kind. induction H as [|f g l l' Hfg Hl IHl]; simpl; auto.
  replace (group_key g) with (group_key f) by (apply group_key_kind; auto).
  destruct (gkey_eqb (group_key f) k); auto.
Qed.

Lemma stack_make_inv gfs L s : stack_make E gfs L = Ok s -> fd_stack (map anonymize gfs) = Ok (fs_factor s).
Proof.
  unfold stack_make. destruct (fd_stack (map anonymize gfs)) as [fd|]; simpl; [|discriminate].
  destruct gfs as [|h r]; [discriminate|]. 
  destruct (foldM _ _ _) as [idx|]; simpl; [|discriminate]. destruct (Nat.eqb _ _); simpl; [|discriminate].
  intros [= <-]. auto.
Qed.

Lemma graph_fold_stacks L Ll gs : forall stacks cs off st' cs' off',
  foldM (graph_step E L Ll) gs (stacks, cs, off) = Ok (st', cs', off') ->
  exists new, st' = stacks ++ new /\ Forall2 (fun kv s => stack_make E (snd kv) L = Ok s) gs new.
Proof.
  induction gs as [|kv gs IH]; intros stacks cs off st' cs' off' H; cbn [foldM] in H.
  - injection H as <- <- <-. exists []. rewrite app_nil_r. auto.
  - cbn [graph_step] in H. destruct (stack_make E (snd kv) L) as [s|] eqn:Es; cbn [bind] in H; [|discriminate].
    destruct (jacobian_coords E (snd kv) Ll off) as [c|]; cbn [bind] in H; [|discriminate].
    apply IH in H. destruct H as (new & -> & Hn). exists (s :: new). rewrite <- app_assoc. auto.
Qed.

Lemma graph_stacks_made fs g : graph_make E fs = Ok g ->
  Forall2 (fun gfs s => fd_stack (map anonymize gfs) = Ok (fs_factor s)) (kgroups fs) (g_stacks g).
Proof.
  unfold graph_make. intros H.
  destruct (foldM _ _ _) as [[[st cs] off]|] eqn:Ef; cbn [bind] in H; [|discriminate].
  destruct cs as [|c cs]; [discriminate|]. injection H as <-. cbn [g_stacks].
  apply graph_fold_stacks in Ef. destruct Ef as (new & -> & Hn). cbn [app].
  rewrite <- group_factors_snd. clear -Hn. induction Hn as [|kv s l l' H Hl IH]; simpl; constructor; auto.
  eapply stack_make_inv; eauto.
Qed.

Lemma graph_is fs g : (forall f, In f fs -> factor_ok f) -> graph_make E fs = Ok g -> is_graph E fs g.
Proof.
  intros Hok Hg. destruct (graph_make_ok E fs Hok) as [Hyes Hno].
  destruct (existsb (fun f => match f_vars f with [] => false | _ => true end) fs) eqn:Ex.
  - apply existsb_exists in Ex. destruct Ex as (f & Hf & Hv).
    destruct Hyes as (g' & Eg & Hig); [exists f; split; auto; intros Hz; rewrite Hz in Hv; discriminate|].
    replace g with g' by congruence. auto.
  - rewrite Hno in Hg; [discriminate|]. intros f Hf. destruct (f_vars f) eqn:Ev; auto. exfalso.
    assert (Ht : existsb (fun f => match f_vars f with [] => false | _ => true end) fs = true).
    { apply existsb_exists. exists f. rewrite Ev. auto. }
    congruence.
Qed.

(* ---- one stack ---- *)
Lemma stacks_match L L' gfs gfs' s s' : same_layout L L' -> group_ok gfs -> group_ok gfs' -> Forall2 R gfs gfs' ->
  is_stack E L gfs s -> is_stack E L' gfs' s' ->
  fd_stack (map anonymize gfs) = Ok (fs_factor s) -> fd_stack (map anonymize gfs') = Ok (fs_factor s') -> stacks_alike s s'.
Proof.
  intros HL Hg Hg' HR Hs Hs' Es Es'.
  destruct HR as [|h h' r r' Hh Hr]; [destruct Hg; congruence|].
  assert (Hk : Forall (same_kind h) (h :: r)).
  { rewrite Forall_forall. intros f Hf. destruct Hg as (_ & Hk & _). apply Hk; auto. left; auto. }
  assert (Hk' : Forall (same_kind h') (h' :: r')).
  { rewrite Forall_forall. intros f Hf. destruct Hg' as (_ & Hk' & _). apply Hk'; auto. left; auto. }
  pose proof (Forall2_len _ _ _ Hr) as Hlen.
  pose proof (is_idx _ _ _ _ Hs) as Hi. pose proof (is_idx _ _ _ _ Hs') as Hi'.
  pose proof (is_num _ _ _ _ Hs) as Hn. pose proof (is_num _ _ _ _ Hs') as Hn'.
  pose proof (is_lay _ _ _ _ Hs) as Hl. pose proof (is_lay _ _ _ _ Hs') as Hl'.
  destruct (fd_stack_shape h r _ Hk Es) as (A1 & A2 & A3 & A4 & A5).
  destruct (fd_stack_shape h' r' _ Hk' Es') as (B1 & B2 & B3 & B4 & B5).
  pose proof (R_kind _ _ Hh) as (K1 & K2 & K3 & K4 & K5).
  apply (same_shape_node_intro 0) in K5. destruct K5 as [K5 K6]. cbn [structure leaves] in K5, K6. injection K5 as K5.
  unfold stacks_alike. rewrite Hn, Hn', Hl, Hl'. cbn [length]. repeat split; try congruence.
  - rewrite A5, B5, Hlen. f_equal. rewrite !map_app, K4. f_equal. auto.
  - rewrite Hi, Hi', A2, B2, K2. unfold columns. rewrite !map_map. apply map_ext. intros i. rewrite !map_length.
    cbn [length map hd]. rewrite Hlen. f_equal. unfold arange. rewrite !seq_length. unfold vpdim.
    f_equal. f_equal. unfold slot. rewrite <- !(map_nth v_ty). rewrite K2. auto.
  - apply HL.
  - apply HL.
  - apply HL.
  - apply HL.
  - apply HL.
Qed.

(* ---- coordinates ---- *)
Definition placed (p p' : list (factor T) * nat) : Prop :=
  Forall2 R (fst p) (fst p') /\ snd p = snd p' /\ group_ok (fst p) /\ group_ok (fst p').

Lemma gdim_rel gfs gfs' : Forall2 R gfs gfs' -> gdim gfs = gdim gfs'.
Proof.
  unfold gdim. induction 1 as [|f g l l' H Hl IH]; simpl; auto. rewrite IH. f_equal. apply same_kind_dim; auto.
Qed.
Lemma place_rel gs gs' : Forall2 (Forall2 R) gs gs' -> (forall x, In x gs -> group_ok x) -> (forall x, In x gs' -> group_ok x) ->
  forall off, Forall2 placed (place gdim off gs) (place gdim off gs').
Proof.
  induction 1 as [|a b l l' H Hl IH]; intros H1 H2 off; simpl; constructor.
  - split; [|split; [|split]]; cbn [fst snd]; auto; [apply H1 | apply H2]; left; auto.
  - rewrite (gdim_rel _ _ H). apply IH; intros; [apply H1 | apply H2]; right; auto.
Qed.

Lemma group_rows Ll Ll' p p' : placed p p' ->
  Forall2 (fun c c' => c_rows c = c_rows c' /\ length (c_cols c) = length (c_cols c'))
    (group_coords E Ll (fst p) (snd p)) (group_coords E Ll' (fst p') (snd p')).
Proof.
  intros (HR & Ho & Hg & Hg'). destruct p as [gfs off], p' as [gfs' off']. cbn [fst snd] in *. subst off'.
  pose proof (Forall2_len _ _ _ HR) as Hlen.
  assert (Hs : gkind_slots gfs = gkind_slots gfs' /\ gkind_dim gfs = gkind_dim gfs' /\ forall i, slot_type i gfs = slot_type i gfs').
  { destruct HR as [|h h' r r' Hh Hr]; simpl; [auto|]. pose proof (R_kind _ _ Hh) as Hk.
    split; [apply same_kind_vars; auto|]. split; [apply same_kind_dim; auto|].
    intros i. destruct Hk as (_ & K & _). unfold slot. rewrite <- !(map_nth v_ty), K. auto. }
  destruct Hs as (S1 & S2 & S3). unfold group_coords. rewrite <- S1.
  assert (HF : forall l, Forall2 (fun c c' => c_rows c = c_rows c' /\ length (c_cols c) = length (c_cols c'))
     (map (fun i => mkCoords
      (flat_map (fun n => flat_map (fun r => repeat (n * gkind_dim gfs + r + off) (local_dim (e_cls E (slot_type i gfs)))) (seq 0 (gkind_dim gfs))) (seq 0 (length gfs)))
      (flat_map (fun f => flat_map (fun _ => arange (pos Ll (slot i f)) (vldim (e_cls E) (slot i f))) (seq 0 (gkind_dim gfs))) gfs)) l)
     (map (fun i => mkCoords
      (flat_map (fun n => flat_map (fun r => repeat (n * gkind_dim gfs' + r + off) (local_dim (e_cls E (slot_type i gfs')))) (seq 0 (gkind_dim gfs'))) (seq 0 (length gfs')))
      (flat_map (fun f => flat_map (fun _ => arange (pos Ll' (slot i f)) (vldim (e_cls E) (slot i f))) (seq 0 (gkind_dim gfs'))) gfs')) l)).
  { induction l as [|i l IH]; simpl; constructor; auto. cbn [c_rows c_cols]. rewrite <- S2, <- Hlen, <- S3. split; auto.
    apply (F2_flat_len R); auto. intros f g Hfg. apply flat_len_const. intros _. unfold arange. rewrite !seq_length.
    unfold vldim. do 2 f_equal. destruct (R_kind _ _ Hfg) as (_ & K & _). unfold slot. rewrite <- !(map_nth v_ty), K. auto. }
  apply HF.
Qed.

Lemma all_rows fs fs' : (forall f, In f fs -> factor_ok f) -> (forall f, In f fs' -> factor_ok f) -> Forall2 R fs fs' ->
  Forall2 (fun c c' => c_rows c = c_rows c' /\ length (c_cols c) = length (c_cols c')) (all_coords E fs) (all_coords E fs').
Proof.
  intros Hok Hok' HR. unfold all_coords.
  pose proof (place_rel _ _ (kgroups_rel _ _ HR) (kgroups_ok fs Hok) (kgroups_ok fs' Hok') 0) as Hp.
  induction Hp as [|p p' l l' H Hl IH]; simpl; auto. apply Forall2_app; auto. apply group_rows; auto.
Qed.

Lemma graphs_match fs fs' g g' : (forall f, In f fs -> factor_ok f) -> (forall f, In f fs' -> factor_ok f) -> Forall2 R fs fs' ->
  same_layout (graph_layout E fs false) (graph_layout E fs' false) ->
  same_layout (graph_layout E fs true) (graph_layout E fs' true) ->
  graph_make E fs = Ok g -> graph_make E fs' = Ok g' ->
  graphs_alike g g' /\ c_rows (g_coords g) = c_rows (g_coords g').
Proof.
  intros Hok Hok' HR HL HLl Eg Eg'.
  pose proof (graph_is _ _ Hok Eg) as Hg. pose proof (graph_is _ _ Hok' Eg') as Hg'.
  pose proof (all_rows _ _ Hok Hok' HR) as Hrow.
  assert (Hrows : c_rows (g_coords g) = c_rows (g_coords g')).
  { rewrite (ig_coords _ _ _ Hg), (ig_coords _ _ _ Hg'). cbn [c_rows]. f_equal. eapply F2_map_eq; [|exact Hrow].
    intros c c' [H _]; auto. }
  assert (Hcols : length (c_cols (g_coords g)) = length (c_cols (g_coords g'))).
  { rewrite (ig_coords _ _ _ Hg), (ig_coords _ _ _ Hg'). cbn [c_cols]. rewrite <- !flat_map_concat_map.
    eapply F2_flat_len; [|exact Hrow]. intros c c' [_ H]; auto. }
  split; auto. unfold graphs_alike. rewrite (ig_layout _ _ _ Hg), (ig_layout _ _ _ Hg'), (ig_local _ _ _ Hg), (ig_local _ _ _ Hg').
  split; [|split; [congruence | split; [auto | split; [auto | split; [auto|]]]]].
  - pose proof (graph_stacks_made _ _ Eg) as M. pose proof (graph_stacks_made _ _ Eg') as M'.
    pose proof (ig_stacks _ _ _ Hg) as S. pose proof (ig_stacks _ _ _ Hg') as S'.
    pose proof (kgroups_rel _ _ HR) as HG.
    pose proof (kgroups_ok fs Hok) as O. pose proof (kgroups_ok fs' Hok') as O'.
    clear -M M' S S' HG O O' HL R_kind.
    revert M M' S S' O O'. generalize (g_stacks g) (g_stacks g'). 
    induction HG as [|a b l l' Hab Hl IH]; intros s s' M M' S S' O O'.
    + inversion M; inversion M'; subst. constructor.
    + inversion M; inversion M'; subst. inversion S; inversion S'; subst. constructor.
      * eapply (stacks_match (graph_layout E fs false) (graph_layout E fs' false) a b); eauto; [apply O | apply O']; left; auto.
      * apply IH; auto; intros; [apply O | apply O']; right; auto.
  - rewrite (ig_dim _ _ _ Hg), (ig_dim _ _ _ Hg'). clear -HR R_kind. induction HR; simpl; auto. f_equal; auto. apply same_kind_dim; auto.
Qed.
End Graphs.

Section Final.
Context {T : Type} {N : Num T}.
Variable E : env T.

(* the order in which the variables are mentioned does not matter as long as the layouts agree *)
Theorem alike_graphs fs fs' g g' : (forall f, In f fs -> factor_ok f) -> (forall f, In f fs' -> factor_ok f) ->
  Forall2 same_kind fs fs' -> mentioned fs = mentioned fs' -> graph_make E fs = Ok g -> graph_make E fs' = Ok g' -> graphs_alike g g'.
Proof.
  intros Hok Hok' HR Hm Eg Eg'.
  refine (proj1 (graphs_match E same_kind (fun _ _ H => H) fs fs' g g' Hok Hok' HR _ _ Eg Eg'));
    unfold graph_layout; rewrite Hm; apply same_layout_refl.
Qed.

Theorem alike_coords fs fs' g g' : (forall f, In f fs -> factor_ok f) -> (forall f, In f fs' -> factor_ok f) ->
  Forall2 (fun f f' => same_kind f f' /\ f_vars f = f_vars f') fs fs' -> graph_make E fs = Ok g -> graph_make E fs' = Ok g' ->
  graphs_alike g g' /\ g_coords g = g_coords g'.
Proof.
  intros Hok Hok' HR Eg Eg'.
  assert (Hm : mentioned fs = mentioned fs').
  { unfold mentioned. f_equal. apply (F2_flat_map _ _ _ _ _ (fun f f' (H : same_kind f f' /\ f_vars f = f_vars f') => proj2 H) HR). }
  assert (HLs : forall b, graph_layout E fs b = graph_layout E fs' b) by (intros b; unfold graph_layout; rewrite Hm; auto).
  destruct (graphs_match E (fun f f' => same_kind f f' /\ f_vars f = f_vars f') (fun _ _ H => proj1 H) fs fs' g g') as [Ha Hr]; auto;
    try (rewrite HLs; apply same_layout_refl).
  split; auto.
  pose proof (graph_is _ _ _ Hok Eg) as Hg. pose proof (graph_is _ _ _ Hok' Eg') as Hg'.
  rewrite (ig_coords _ _ _ Hg), (ig_coords _ _ _ Hg') in *. cbn [c_rows] in Hr. rewrite Hr. f_equal.
  assert (HF : Forall2 (fun c c' => c_cols c = c_cols c') (all_coords E fs) (all_coords E fs')); [|f_equal; eapply F2_map_eq; [|exact HF]; auto].
  unfold all_coords. rewrite <- HLs.
  pose proof (place_rel (fun f f' => same_kind f f' /\ f_vars f = f_vars f') (fun _ _ H => proj1 H) _ _
    (kgroups_rel _ (fun _ _ H => proj1 H) _ _ HR) (kgroups_ok fs Hok) (kgroups_ok fs' Hok') 0) as Hp.
  induction Hp as [|[gfs off] [gfs' off'] l l' H Hl IH]; simpl; auto. apply Forall2_app; auto.
  destruct H as (HG & Ho & Hg1 & Hg2). cbn [fst snd] in *. subst off'. unfold group_coords.
  assert (Hs : gkind_slots gfs = gkind_slots gfs' /\ gkind_dim gfs = gkind_dim gfs').
  { destruct HG as [|h h' r r' Hh Hrr]; simpl; [auto|]. destruct Hh as [Hk Hv]. rewrite Hv. split; auto. apply same_kind_dim; auto. }
  destruct Hs as [S1 S2]. rewrite <- S1, <- S2. generalize (seq 0 (gkind_slots gfs)).
  induction l0 as [|i l0 IH0]; simpl; constructor; auto. cbn [c_cols].
  eapply F2_flat_map; [|exact HG]. intros f f' [_ Hv]. unfold slot. rewrite Hv. auto.
Qed.
Theorem jit_repeat cs (Hok : forall c, In c cs -> call_ok E c) i (c : call T) : nth_error cs i = Some c ->
  (forall k e, k < i -> nth_error cs k = Some e -> calls_alike e c -> call_pattern e = call_pattern c) ->
  nth_error (fst (jit_run cs jit0)) i = Some (Some (call_pattern c)).
Proof.
  intros Hi H. destruct (jit_analysis E cs Hok i c Hi) as (j & d & Hj & Hd & Ha & _ & R). rewrite R. do 2 f_equal.
  destruct (Nat.eq_dec j i) as [->|Hne]; [congruence|]. apply (H j); auto. lia.
Qed.
End Final.
