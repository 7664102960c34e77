(* Sparse matrices *)
From Coq Require Import List Arith Bool Lia Permutation Reals Lra.
From Verif Require Import Num NumR Py Arr PBase MSparse SpecSparse PVec.
Import ListNotations.

(* ---- any numbers ---- *)
Section AnyNum.
Context {T : Type} {N : Num T}.

Lemma upd_length {A} (f : A -> A) i l : length (upd f i l) = length l.
Proof. revert i; induction l; intros [|i]; simpl; auto. Qed.
Lemma nth_upd {A} (f : A -> A) i l k d : k < length l ->
  nth k (upd f i l) d = if Nat.eqb k i then f (nth k l d) else nth k l d.
Proof. revert i k; induction l; intros [|i] [|k]; simpl; intros; try lia; auto. apply IHl. lia. Qed.
Lemma scatter_length (acc : list T) rows vals : length (scatter_add acc rows vals) = length acc.
Proof.
  unfold scatter_add. revert acc. induction (combine rows vals) as [|[r v] l IH]; intros acc; simpl; auto.
  rewrite IH, upd_length. auto.
Qed.

Definition mapply (A : coo T) (x : list T) : list T :=
  scatter_add (vzero (fst (m_shape A))) (c_rows (m_coords A)) (vmul (m_vals A) (gather n0 x (c_cols (m_coords A)))).

Lemma mapply_length A x : length (mapply A x) = fst (m_shape A).
Proof. unfold mapply. rewrite scatter_length, vzero_length. auto. Qed.

Lemma matmul_mapply A x : coo_ok A -> length x = snd (m_shape A) -> matmul A x = Ok (mapply A x).
Proof.
  intros (H1 & H2 & _) Hx. unfold matmul. rewrite Hx, Nat.eqb_refl. cbn [assert_ bind].
  rewrite H1, H2, Nat.eqb_refl. auto.
Qed.
Lemma matmul_err A x : length x <> snd (m_shape A) -> matmul A x = Err AssertionError.
Proof. intros H. unfold matmul. rewrite (proj2 (Nat.eqb_neq _ _) H). auto. Qed.

Lemma transpose_ok (A : coo T) : coo_ok A -> coo_ok (transpose A).
Proof. intros (H1 & H2 & H3 & H4). repeat split; auto. Qed.
Lemma transpose_involutive (A : coo T) : transpose (transpose A) = A.
Proof. destruct A as [v [r c] [m n]]. reflexivity. Qed.

Lemma combine_swap_map {A B} (l1 : list A) (l2 : list B) :
  combine l2 l1 = map (fun p => (snd p, fst p)) (combine l1 l2).
Proof. revert l2; induction l1; intros [|]; simpl; auto. f_equal. auto. Qed.

Lemma transpose_triples (A : coo T) : triples (transpose A) = map (fun t => (snd (fst t), fst (fst t), snd t)) (triples A).
Proof.
  unfold triples, transpose; simpl. generalize (c_rows (m_coords A)) (c_cols (m_coords A)) (m_vals A).
  induction l; intros [|c cs] [|v vs]; simpl; auto. f_equal. auto.
Qed.

Lemma triples_in (A : coo T) r c v : coo_ok A -> In (r, c, v) (triples A) -> r < fst (m_shape A) /\ c < snd (m_shape A).
Proof.
  intros (H1 & H2 & H3 & H4) Hin. unfold triples in Hin. apply in_combine_l in Hin.
  rewrite Forall_forall in H3, H4. split; [apply H3; eapply in_combine_l; eauto | apply H4; eapply in_combine_r; eauto].
Qed.

Lemma triples_fst (A : coo T) : coo_ok A -> map fst (triples A) = combine (c_rows (m_coords A)) (c_cols (m_coords A)).
Proof.
  intros (H1 & H2 & _). unfold triples.
  assert (Hg : forall (l : list (nat * nat)) (v : list T), length l = length v -> map fst (combine l v) = l).
  { induction l; intros [|]; simpl; intros; try discriminate; auto. f_equal. auto. }
  apply Hg. rewrite combine_length. lia.
Qed.

(* dense views *)
Definition dense_ok (m n : nat) (D : list (list T)) : Prop := length D = m /\ Forall (fun row => length row = n) D.
Lemma upd2_ok m n D f r c : dense_ok m n D -> dense_ok m n (upd (upd f c) r D).
Proof.
  intros (H1 & H2). split; [rewrite upd_length; auto|]. clear H1. revert r; induction H2; intros [|r]; simpl; constructor; auto.
  rewrite upd_length; auto.
Qed.
Lemma upd2_nth m n (D : list (list T)) f r c i j : dense_ok m n D -> i < m -> j < n ->
  nth j (nth i (upd (upd f c) r D) []) n0 =
  if Nat.eqb i r && Nat.eqb j c then f (nth j (nth i D []) n0) else nth j (nth i D []) n0.
Proof.
  intros (H1 & H2) Hi Hj. rewrite nth_upd by lia. destruct (Nat.eqb i r); simpl; auto.
  rewrite nth_upd; auto. rewrite Forall_forall in H2. rewrite H2; auto. apply nth_In. lia.
Qed.
Lemma zeros_ok m n : dense_ok m n (repeat (vzero n) m).
Proof. split; [apply repeat_length|]. rewrite Forall_forall. intros x Hx. apply repeat_spec in Hx. subst. apply vzero_length. Qed.

Definition at_pos (i j : nat) (t : nat * nat * T) : bool := Nat.eqb i (fst (fst t)) && Nat.eqb j (snd (fst t)).

Lemma dense_set_fold m n i j : i < m -> j < n -> forall (ts : list (nat * nat * T)) D, dense_ok m n D ->
  nth j (nth i (fold_left (fun acc rcv => upd (upd (fun _ => snd rcv) (snd (fst rcv))) (fst (fst rcv)) acc) ts D) []) n0 =
  match find (at_pos i j) (rev ts) with Some t => snd t | None => nth j (nth i D []) n0 end.
Proof.
  intros Hi Hj ts. induction ts as [|t ts IH] using rev_ind; intros D HD; simpl; auto.
  rewrite fold_left_app, rev_app_distr. cbn [fold_left rev app find].
  assert (HD' : dense_ok m n (fold_left (fun acc rcv => upd (upd (fun _ => snd rcv) (snd (fst rcv))) (fst (fst rcv)) acc) ts D)).
  { clear -HD. revert D HD. induction ts; intros D HD; simpl; auto. apply IHts. apply upd2_ok; auto. }
  rewrite (upd2_nth m n) by auto. fold (at_pos i j t). destruct (at_pos i j t); auto.
Qed.

Lemma dense_set_ok m n (ts : list (nat * nat * T)) D : dense_ok m n D ->
  dense_ok m n (fold_left (fun acc rcv => upd (upd (fun _ => snd rcv) (snd (fst rcv))) (fst (fst rcv)) acc) ts D).
Proof. revert D; induction ts; intros D HD; simpl; auto. apply IHts. apply upd2_ok; auto. Qed.

Lemma as_dense_ok A : dense_ok (fst (m_shape A)) (snd (m_shape A)) (as_dense A).
Proof. unfold as_dense. apply dense_set_ok, zeros_ok. Qed.

(* as_dense: the last stored value wins *)
Lemma as_dense_entry A i j : i < fst (m_shape A) -> j < snd (m_shape A) ->
  nth j (nth i (as_dense A) []) n0 = match find (at_pos i j) (rev (triples A)) with Some t => snd t | None => n0 end.
Proof.
  intros Hi Hj. unfold as_dense, triples. rewrite (dense_set_fold (fst (m_shape A)) (snd (m_shape A)) i j Hi Hj) by apply zeros_ok.
  destruct (find _ _); auto.
  rewrite (nth_indep (repeat (vzero (snd (m_shape A))) (fst (m_shape A))) [] (vzero (snd (m_shape A)))) by (rewrite repeat_length; auto).
  rewrite nth_repeat. apply nth_vzero.
Qed.

Lemma find_distinct i j v (ts : list (nat * nat * T)) : NoDup (map fst ts) -> In (i, j, v) ts -> find (at_pos i j) (rev ts) = Some (i, j, v).
Proof.
  intros ND Hin. assert (ND' : NoDup (map fst (rev ts))) by (rewrite map_rev; apply NoDup_rev; auto).
  apply in_rev in Hin. revert ND' Hin. generalize (rev ts). clear.
  induction l as [|[[r c] w] l IH]; simpl; [tauto|]. intros ND. inversion ND as [|? ? Hni ND']; subst. unfold at_pos at 1; simpl.
  intros [Eq|Hin].
  - injection Eq as -> -> ->. rewrite !Nat.eqb_refl. auto.
  - destruct (Nat.eqb_spec i r), (Nat.eqb_spec j c); simpl; auto. subst. exfalso. apply Hni. apply (in_map fst) in Hin. auto.
Qed.
Lemma find_none i j (ts : list (nat * nat * T)) : ~ In (i, j) (map fst ts) -> find (at_pos i j) (rev ts) = None.
Proof.
  intros H. destruct (find (at_pos i j) (rev ts)) as [[[r c] v]|] eqn:Ef; auto. exfalso. apply H.
  apply find_some in Ef. destruct Ef as [Hin Hp]. unfold at_pos in Hp; simpl in Hp. apply andb_true_iff in Hp.
  destruct Hp as [H1 H2]. apply Nat.eqb_eq in H1, H2. subst. apply in_rev in Hin. apply (in_map fst) in Hin. auto.
Qed.

Lemma as_dense_distinct A : coo_ok A -> distinct A ->
  (forall i j v, In (i, j, v) (triples A) -> nth j (nth i (as_dense A) []) n0 = v) /\
  (forall i j, i < fst (m_shape A) -> j < snd (m_shape A) -> ~ In (i, j) (map fst (triples A)) ->
     nth j (nth i (as_dense A) []) n0 = n0).
Proof.
  intros Hok Hd. split.
  - intros i j v Hin. destruct (triples_in A i j v Hok Hin) as [Hi Hj].
    rewrite as_dense_entry by auto. rewrite (find_distinct i j v); auto. rewrite triples_fst by auto. exact Hd.
  - intros i j Hi Hj Hn. rewrite as_dense_entry by auto. rewrite find_none; auto.
Qed.

Lemma scipy_round_trip (A : coo T) (S : scipy_coo T) : from_scipy (as_scipy A) = A /\ as_scipy (from_scipy S) = S.
Proof. destruct A as [v [r c] s], S as [d r' c' s']; split; reflexivity. Qed.
End AnyNum.

(* ---- exact arithmetic ---- *)
Local Open Scope R_scope.

(* y^T M x for the matrix given by triplets *)
Definition bil (ts : list (nat * nat * R)) (y x : list R) : R :=
  vsum (map (fun t => nth (fst (fst t)) y 0 * (snd t * nth (snd (fst t)) x 0)) ts).

Lemma bil_perm ts ts' y x : Permutation ts ts' -> bil ts y x = bil ts' y x.
Proof. intros H. unfold bil. apply vsum_perm, Permutation_map; auto. Qed.
Lemma bil_app ts ts' y x : bil (ts ++ ts') y x = bil ts y x + bil ts' y x.
Proof. unfold bil. rewrite map_app. apply vsum_app. Qed.
Lemma bil_flat_map {A} (F : A -> list (nat * nat * R)) l y x : bil (flat_map F l) y x = vsum (map (fun a => bil (F a) y x) l).
Proof. unfold bil. apply vsum_flat_map. Qed.
Lemma bil_add_r ts y a b : length a = length b -> bil ts y (vadd a b) = bil ts y a + bil ts y b.
Proof. intros H. unfold bil. rewrite <- vsum_map_plus. apply vsum_map_ext. intros t _. rewrite nth_vadd by auto. lra. Qed.
Lemma bil_scale_r ts y k a : bil ts y (vscale k a) = k * bil ts y a.
Proof. unfold bil. rewrite <- vsum_map_scale. apply vsum_map_ext. intros t _. rewrite nth_vscale. lra. Qed.

Lemma vdot_upd (y acc : list R) r v : length y = length acc -> (r < length acc)%nat ->
  vdot y (upd (fun x => nadd x v) r acc) = vdot y acc + nth r y 0 * v.
Proof.
  revert y r; induction acc as [|a acc IH]; intros [|b y] [|r]; simpl length; intros; try lia; simpl upd; rewrite !vdot_cons.
  - simpl. rn. lra.
  - rewrite IH by lia. simpl. lra.
Qed.
Lemma vdot_scatter (y acc : list R) rows vals : length y = length acc -> Forall (fun r => (r < length acc)%nat) rows ->
  vdot y (scatter_add acc rows vals) = vdot y acc + vsum (map (fun rv => nth (fst rv) y 0 * snd rv) (combine rows vals)).
Proof.
  intros Hy Hr. unfold scatter_add.
  assert (Hc : Forall (fun rv => (fst rv < length acc)%nat) (combine rows vals)).
  { rewrite Forall_forall in *. intros [r v] Hin. apply Hr. eapply in_combine_l; eauto. }
  clear Hr. revert acc Hy Hc. induction (combine rows vals) as [|[r v] l IH]; intros acc Hy Hc; simpl; rewrite ?vsum_cons, ?vsum_nil; [lra|].
  inversion Hc; subst. simpl in *. rewrite IH.
  - rewrite vdot_upd by auto. lra.
  - rewrite upd_length. auto.
  - rewrite upd_length. auto.
Qed.

Lemma combine_vmul_gather (x : list R) n : length x = n -> forall (rows : list nat) cols (vals : list R),
  Forall (fun c => (c < n)%nat) cols -> length rows = length vals -> length cols = length vals ->
  combine rows (vmul vals (gather 0 x cols)) =
  map (fun t => (fst (fst t), snd t * nth (snd (fst t)) x 0)) (combine (combine rows cols) vals).
Proof.
  intros Hx. induction rows as [|r rows IH]; intros [|c cols] [|v vals]; simpl; intros Hc; try discriminate; auto.
  intros H1 H2. inversion Hc; subst. unfold vmul, gather; simpl. f_equal.
  - rewrite Nat.min_l by lia. auto.
  - apply IH; auto.
Qed.

Lemma mapply_dot (A : coo R) x y : coo_ok A -> length x = snd (m_shape A) -> length y = fst (m_shape A) ->
  vdot y (mapply A x) = bil (triples A) y x.
Proof.
  intros (H1 & H2 & H3 & H4) Hx Hy. unfold mapply. rewrite vdot_scatter.
  - rewrite vdot_zero_r. rewrite (combine_vmul_gather x (snd (m_shape A)) Hx) by auto.
    rewrite map_map. unfold bil, triples. rewrite Rplus_0_l. auto.
  - rewrite vzero_length. auto.
  - rewrite vzero_length. auto.
Qed.

Lemma nth_mapply (A : coo R) x i : coo_ok A -> length x = snd (m_shape A) -> (i < fst (m_shape A))%nat ->
  nth i (mapply A x) 0 = vsum (map (fun t => if Nat.eqb (fst (fst t)) i then snd t * nth (snd (fst t)) x 0 else 0) (triples A)).
Proof.
  intros Hok Hx Hi. rewrite <- (vdot_unitv (fst (m_shape A)) i) by (auto; apply mapply_length).
  rewrite mapply_dot by (auto; apply unitv_length). unfold bil. apply vsum_map_ext. intros [[r c] v] Hin. simpl.
  destruct (triples_in A r c v Hok Hin) as [Hr _]. rewrite nth_unitv by auto. destruct (Nat.eqb r i); lra.
Qed.

(* adjoint *)
Lemma bil_transpose (A : coo R) y x : bil (triples (transpose A)) x y = bil (triples A) y x.
Proof. rewrite transpose_triples. unfold bil. rewrite map_map. apply vsum_map_ext. intros t _. simpl. lra. Qed.

Lemma mapply_adjoint (A : coo R) x y : coo_ok A -> length x = snd (m_shape A) -> length y = fst (m_shape A) ->
  vdot (mapply A x) y = vdot x (mapply (transpose A) y).
Proof.
  intros Hok Hx Hy. rewrite vdot_comm, mapply_dot by auto.
  rewrite mapply_dot by (try apply transpose_ok; auto). symmetry. apply bil_transpose.
Qed.
Lemma mapply_add (A : coo R) a b : coo_ok A -> length a = snd (m_shape A) -> length b = snd (m_shape A) ->
  mapply A (vadd a b) = vadd (mapply A a) (mapply A b).
Proof.
  intros Hok Ha Hb. apply (vec_ext (fst (m_shape A))); [apply mapply_length | rewrite vadd_length; rewrite ?mapply_length; auto|].
  intros y Hy. rewrite vdot_add_r by (rewrite !mapply_length; auto).
  rewrite !mapply_dot; auto; [apply bil_add_r; lia | rewrite vadd_length; lia].
Qed.
Lemma mapply_scale (A : coo R) k a : coo_ok A -> length a = snd (m_shape A) -> mapply A (vscale k a) = vscale k (mapply A a).
Proof.
  intros Hok Ha. apply (vec_ext (fst (m_shape A))); [apply mapply_length | rewrite vscale_length; apply mapply_length|].
  intros y Hy. rewrite vdot_scale_r, !mapply_dot by (rewrite ?vscale_length; auto). apply bil_scale_r.
Qed.

Lemma normal_dot (A : coo R) x y : coo_ok A -> length x = snd (m_shape A) -> length y = snd (m_shape A) ->
  vdot y (mapply (transpose A) (mapply A x)) = vdot (mapply A y) (mapply A x).
Proof. intros Hok Hx Hy. rewrite mapply_adjoint; auto. apply mapply_length. Qed.

(* ---- dense views ---- *)
Lemma mvec_upd2 (D : list (list R)) m n y x r c v : dense_ok m n D -> length y = m -> length x = n -> (r < m)%nat -> (c < n)%nat ->
  vdot y (mvec (upd (upd (fun z => nadd z v) c) r D) x) = vdot y (mvec D x) + nth r y 0 * (v * nth c x 0).
Proof.
  intros (HD & HF) Hy Hx. revert m y r HD Hy. induction HF as [|row D Hrow HF IH]; intros m [|b y] r HD Hy Hr Hc; cbn [length] in *; try lia.
  destruct r as [|r]; cbn [upd]; rewrite !mvec_cons, !vdot_cons.
  - assert (E : vdot (upd (fun z => nadd z v) c row) x = vdot row x + v * nth c x 0).
    { rewrite vdot_comm, vdot_upd by lia. rewrite (vdot_comm x row). lra. }
    rewrite E. simpl. lra.
  - rewrite (IH (length D) y r) by lia. simpl. lra.
Qed.
Lemma mvec_zeros m n y x : vdot y (mvec (repeat (@vzero R NumR n) m) x) = 0.
Proof.
  assert (E : mvec (repeat (@vzero R NumR n) m) x = vzero m).
  { induction m; auto. simpl repeat. rewrite mvec_cons, vzero_S, IHm, vdot_zero_l. auto. }
  rewrite E. apply vdot_zero_r.
Qed.

Lemma scipy_dense_ok (A : coo R) : dense_ok (fst (m_shape A)) (snd (m_shape A)) (scipy_dense (as_scipy A)).
Proof.
  unfold scipy_dense, as_scipy. cbn [sp_row sp_col sp_data sp_shape].
  generalize (combine (combine (c_rows (m_coords A)) (c_cols (m_coords A))) (m_vals A)). intros l.
  generalize (zeros_ok (T := R) (fst (m_shape A)) (snd (m_shape A))).
  generalize (repeat (@vzero R NumR (snd (m_shape A))) (fst (m_shape A))).
  induction l; intros D HD; simpl; auto. apply IHl. apply upd2_ok; auto.
Qed.

(* the matrix CHOLMOD receives: repeated triplets are summed *)
Lemma scipy_dense_dot (A : coo R) y x : coo_ok A -> length x = snd (m_shape A) -> length y = fst (m_shape A) ->
  vdot y (mvec (scipy_dense (as_scipy A)) x) = bil (triples A) y x.
Proof.
  intros Hok Hx Hy. unfold scipy_dense, as_scipy. cbn [sp_row sp_col sp_data sp_shape].
  assert (Hin : forall t, In t (triples A) -> (fst (fst t) < fst (m_shape A))%nat /\ (snd (fst t) < snd (m_shape A))%nat).
  { intros [[r c] v] Hin. apply (triples_in A r c v Hok Hin). }
  fold (triples A). revert Hin. generalize (triples A). intros ts Hin.
  rewrite <- (Rplus_0_l (bil ts y x)), <- (mvec_zeros (fst (m_shape A)) (snd (m_shape A)) y x).
  generalize (zeros_ok (T := R) (fst (m_shape A)) (snd (m_shape A))).
  generalize (repeat (@vzero R NumR (snd (m_shape A))) (fst (m_shape A))).
  induction ts as [|t ts IH]; intros D HD; [unfold bil; simpl map; rewrite vsum_nil; simpl; lra|].
  simpl fold_left. rewrite IH; [|intros; apply Hin; right; auto | apply upd2_ok; auto].
  destruct (Hin t) as [H1 H2]; [left; auto|].
  rewrite (mvec_upd2 D _ _ y x _ _ _ HD Hy Hx H1 H2). unfold bil. simpl map. rewrite vsum_cons. lra.
Qed.
Lemma scipy_dense_mapply (A : coo R) x : coo_ok A -> length x = snd (m_shape A) -> mvec (scipy_dense (as_scipy A)) x = mapply A x.
Proof.
  intros Hok Hx. destruct (scipy_dense_ok A) as [HD _].
  apply (vec_ext (fst (m_shape A))); [rewrite mvec_length; auto | apply mapply_length|].
  intros y Hy. rewrite scipy_dense_dot, mapply_dot; auto.
Qed.

Lemma dense_ext m n (D1 D2 : list (list R)) : dense_ok m n D1 -> dense_ok m n D2 ->
  (forall i j, (i < m)%nat -> (j < n)%nat -> nth j (nth i D1 []) 0 = nth j (nth i D2 []) 0) -> D1 = D2.
Proof.
  intros (H1 & F1) (H2 & F2) H. apply (nth_ext' D1 D2 []); [lia|]. intros i Hi.
  rewrite Forall_forall in F1, F2.
  assert (L1 : length (nth i D1 []) = n) by (apply F1, nth_In; auto).
  assert (L2 : length (nth i D2 []) = n) by (apply F2, nth_In; lia).
  apply (nth_ext' _ _ 0); [lia|]. intros j Hj. apply H; lia.
Qed.

(* with distinct coordinates setting and adding agree *)
Lemma as_dense_scipy (A : coo R) : coo_ok A -> distinct A -> as_dense A = scipy_dense (as_scipy A).
Proof.
  intros Hok Hd. unfold as_dense, scipy_dense, as_scipy. cbn [sp_row sp_col sp_data sp_shape]. fold (triples A).
  unfold distinct in Hd. rewrite <- triples_fst in Hd by auto.
  assert (Hin : forall t, In t (triples A) -> (fst (fst t) < fst (m_shape A))%nat /\ (snd (fst t) < snd (m_shape A))%nat).
  { intros [[r c] v] Hin. apply (triples_in A r c v Hok Hin). }
  assert (Hz : forall t, In t (triples A) -> nth (snd (fst t)) (nth (fst (fst t)) (repeat (@vzero R NumR (snd (m_shape A))) (fst (m_shape A))) []) 0 = 0).
  { intros t Ht. destruct (Hin t Ht) as [H1 H2]. rewrite (nth_indep (repeat (@vzero R NumR (snd (m_shape A))) (fst (m_shape A))) [] (vzero (snd (m_shape A)))) by (rewrite repeat_length; auto).
    rewrite nth_repeat. exact (nth_vzero (T := R) (snd (m_shape A)) (snd (fst t))). }
  revert Hd Hin Hz. generalize (zeros_ok (T := R) (fst (m_shape A)) (snd (m_shape A))).
  generalize (repeat (@vzero R NumR (snd (m_shape A))) (fst (m_shape A))). generalize (triples A).
  set (m := fst (m_shape A)). set (n := snd (m_shape A)).
  induction l as [|t l IH]; intros D HD Hd Hin Hz; simpl; auto.
  inversion Hd as [|? ? Hni Hd']; subst. destruct (Hin t) as [H1 H2]; [left; auto|].
  assert (Eq : upd (upd (fun _ => snd t) (snd (fst t))) (fst (fst t)) D = upd (upd (fun x => nadd x (snd t)) (snd (fst t))) (fst (fst t)) D).
  { apply (dense_ext m n); try (apply upd2_ok; auto). intros i j Hi Hj.
    pose proof (upd2_nth m n D (fun _ => snd t) (fst (fst t)) (snd (fst t)) i j HD Hi Hj) as U1.
    pose proof (upd2_nth m n D (fun x => nadd x (snd t)) (fst (fst t)) (snd (fst t)) i j HD Hi Hj) as U2.
    rn. rewrite U1, U2. destruct (Nat.eqb_spec i (fst (fst t))), (Nat.eqb_spec j (snd (fst t))); simpl; auto.
    subst. pose proof (Hz t (or_introl eq_refl)) as Hzt. rn. rewrite Hzt. lra. }
  rewrite Eq. apply IH; auto.
  - apply upd2_ok; auto.
  - intros; apply Hin; right; auto.
  - intros t' Ht'. destruct (Hin t') as [H1' H2']; [right; auto|].
    pose proof (upd2_nth m n D (fun x => nadd x (snd t)) (fst (fst t)) (snd (fst t)) (fst (fst t')) (snd (fst t')) HD H1' H2') as U.
    rn. rewrite U. destruct (Nat.eqb_spec (fst (fst t')) (fst (fst t))), (Nat.eqb_spec (snd (fst t')) (snd (fst t))); simpl;
      try (apply Hz; right; auto; fail).
    exfalso. apply Hni. replace (fst t) with (fst t'); [apply in_map; auto|]. destruct (fst t), (fst t'); simpl in *; congruence.
Qed.

Lemma as_dense_mapply (A : coo R) x : coo_ok A -> distinct A -> length x = snd (m_shape A) -> mvec (as_dense A) x = mapply A x.
Proof. intros. rewrite as_dense_scipy by auto. apply scipy_dense_mapply; auto. Qed.
