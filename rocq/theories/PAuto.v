(* Lemmas about the default Jacobians. *)
From Coq Require Import List Arith Bool Lia.
From Verif Require Import Num Py Arr MLayout MAssign MNoise MFactor MAuto SpecLayout SpecTree SpecAssign SpecGraph SpecAuto PBase PTree PVec.
Import ListNotations.
Local Open Scope nat_scope.

Lemma slice_nth {A} (l : list A) a n d : a + n <= length l -> slice l a (a + n) = map (fun k => nth (a + k) l d) (seq 0 n).
Proof.
  intros H. apply (nth_ext _ _ d d).
  - rewrite slice_length, map_length, seq_length by lia. lia.
  - intros k Hk. rewrite slice_length in Hk by lia.
    rewrite (nth_map' _ (seq 0 n) k d 0) by (rewrite seq_length; lia). rewrite seq_nth by lia. simpl.
    assert (Hn : nth_error (slice l a (a + n)) k = nth_error l (a + k)) by (apply nth_error_slice; lia).
    rewrite (nth_error_nth' l d) in Hn by lia. apply nth_error_nth with (d := d) in Hn. auto.
Qed.
Lemma seq_shift_map a n : seq a n = map (fun k => a + k) (seq 0 n).
Proof. revert a; induction n; intros; simpl; auto. f_equal; [lia|]. rewrite IHn, (IHn 1), map_map. apply map_ext. intros; lia. Qed.
Lemma zipw_map2 {A B D I} (f : A -> B -> D) (g : I -> A) (h : I -> B) l : zipw f (map g l) (map h l) = map (fun i => f (g i) (h i)) l.
Proof. induction l; simpl; congruence. Qed.

Section One.
Context {T : Type} {N : Num T}.

Definition rows_of (rd : nat) (a : arr T) : list (list T) := chunks rd (size (tl (a_shape a))) (a_data a).
Lemma reshape_rows_ok rd s a : 0 < rd -> arr_ok a = true -> a_shape a = rd :: s ->
  reshape_rows rd a = Ok (rows_of rd a) /\ length (a_data a) = rd * size s.
Proof.
  intros Hp Ha Hs. unfold arr_ok in Ha. apply Nat.eqb_eq in Ha. rewrite Hs in Ha. simpl in Ha. fold (size s) in Ha.
  split; auto. unfold reshape_rows, rows_of. destruct rd as [|rd]; [lia|]. rewrite Hs. simpl Nat.eqb. cbn [tl].
  assert (Hd : length (a_data a) / S rd = size s). { rewrite Ha, Nat.mul_comm. apply Nat.div_mul. lia. }
  rewrite Hd. unfold reshape2. rewrite Ha, Nat.eqb_refl. auto.
Qed.
Lemma rows_nth rd s a r : arr_ok a = true -> a_shape a = rd :: s -> r < rd ->
  nth r (rows_of rd a) [] = map (fun k => nth (r * size s + k) (a_data a) n0) (seq 0 (size s)).
Proof.
  intros Ha Hs Hr. unfold rows_of. rewrite Hs. cbn [tl]. unfold arr_ok in Ha. apply Nat.eqb_eq in Ha. rewrite Hs in Ha. simpl in Ha. fold (size s) in Ha.
  erewrite nth_error_nth; [|apply nth_error_chunks; auto]. apply slice_nth. rewrite Ha. nia.
Qed.
Lemma fold_zip_app rest : forall m : list (list T), Forall (fun b => length b = length m) rest ->
  length (fold_left (zipw (@app T)) rest m) = length m /\
  forall r, r < length m -> nth r (fold_left (zipw (@app T)) rest m) [] = nth r m [] ++ concat (map (fun b => nth r b []) rest).
Proof.
  induction rest as [|b rest IH]; intros m H; simpl.
  - split; auto. intros. rewrite app_nil_r. auto.
  - inversion H as [|? ? H1 H2]; subst. destruct (IH (zipw (@app T) m b)) as [I1 I2].
    { eapply Forall_impl; [|exact H2]. simpl. intros ? ->. rewrite zipw_length. lia. }
    rewrite zipw_length in I1. split; [lia|]. intros r Hr. rewrite I2 by (rewrite zipw_length; lia).
    rewrite (nth_zipw (@app T) _ _ _ [] [] []) by lia. rewrite app_assoc. auto.
Qed.

Definition count (ls : list (arr T)) : nat := list_sum (map (fun a => size (tl (a_shape a))) ls).
Lemma partial_seq ls r : map (partial ls r) (seq 0 (count ls)) =
  concat (map (fun a => map (fun k => nth (r * size (tl (a_shape a)) + k) (a_data a) n0) (seq 0 (size (tl (a_shape a))))) ls).
Proof.
  induction ls as [|a ls IH]; auto. cbn [map concat]. change (count (a :: ls)) with (size (tl (a_shape a)) + count ls).
  rewrite seq_app, map_app. f_equal.
  - apply map_ext_in. intros k Hk. apply in_seq in Hk. cbn [partial]. cbv zeta.
    destruct (Nat.ltb_spec k (size (tl (a_shape a)))); auto; lia.
  - rewrite <- IH. simpl. rewrite (seq_shift_map (size (tl (a_shape a)))), map_map. apply map_ext. intros k. cbn [partial]. cbv zeta.
    destruct (Nat.ltb_spec (size (tl (a_shape a)) + k) (size (tl (a_shape a)))); [lia|]. f_equal. lia.
Qed.
Lemma residual_count rd x D : residual_arrays rd x D -> count (leaves D) = scalars x.
Proof.
  intros [_ H]. unfold count, scalars. f_equal.
  transitivity (map (fun s => size (tl s)) (map a_shape (leaves D))); [rewrite map_map; auto|]. rewrite H, map_map. auto.
Qed.

Lemma residual_block_ok rd x D : 0 < rd -> leaves x <> [] -> residual_arrays rd x D ->
  exists A, residual_block rd D = Ok A /\ length A = rd /\
    forall r, r < rd -> nth r A [] = map (partial (leaves D) r) (seq 0 (scalars x)).
Proof.
  intros Hp Hne HD. pose proof (residual_count rd x D HD) as Hc. destruct HD as [Hok Hsh].
  assert (Hall : forall a, In a (leaves D) -> arr_ok a = true /\ exists s, a_shape a = rd :: s).
  { intros a Ha. split; [apply (proj1 (Forall_forall _ _) Hok); auto|].
    apply (in_map a_shape) in Ha. rewrite Hsh in Ha. apply in_map_iff in Ha. destruct Ha as (b & E & _). eauto. }
  assert (Htr : traverse (reshape_rows rd) (leaves D) = Ok (map (rows_of rd) (leaves D))).
  { apply traverse_all. intros a Ha. destruct (Hall a Ha) as (H1 & s & H2). apply (reshape_rows_ok rd s a); auto. }
  unfold residual_block. rewrite Htr. cbn [bind]. rewrite <- Hc.
  destruct (leaves D) as [|a ls] eqn:EL.
  { exfalso. apply Hne. destruct (leaves x); auto. discriminate. }
  cbn [map hconcat].
  assert (Hl : forall b, In b (a :: ls) -> length (rows_of rd b) = rd) by (intros; unfold rows_of; apply chunks_length).
  assert (HF : Forall (fun b => length b = length (rows_of rd a)) (map (rows_of rd) ls)).
  { apply Forall_forall. intros b Hb. apply in_map_iff in Hb. destruct Hb as (c & <- & Hin). rewrite !Hl; simpl; auto. }
  assert (Hfb : forallb (fun b => Nat.eqb (length b) (length (rows_of rd a))) (map (rows_of rd) ls) = true).
  { apply forallb_forall. intros b Hb. apply Nat.eqb_eq. revert b Hb. apply Forall_forall. auto. }
  rewrite Hfb. eexists; split; [reflexivity|]. destruct (fold_zip_app _ _ HF) as [I1 I2]. rewrite Hl in I1, I2 by (left; auto).
  split; auto. intros r Hr. rewrite I2, partial_seq, map_map by auto. cbn [map concat].
  assert (Hrow : forall b, In b (a :: ls) -> nth r (rows_of rd b) [] = map (fun k => nth (r * size (tl (a_shape b)) + k) (a_data b) n0) (seq 0 (size (tl (a_shape b))))).
  { intros b Hb. destruct (Hall b Hb) as (H1 & s & H2). rewrite (rows_nth rd s b r H1 H2 Hr), H2. auto. }
  rewrite Hrow by (left; auto). f_equal. f_equal. apply map_ext_in. intros b Hb. apply Hrow. right; auto.
Qed.

Lemma size_snoc s ld : size (s ++ [ld]) = size s * ld.
Proof. induction s as [|n s IH]; cbn [app size fold_right]; [lia|]. unfold size in *. rewrite IH. lia. Qed.
Lemma reshape_cols_ok ld s (a : arr T) : 0 < ld -> arr_ok a = true -> a_shape a = s ++ [ld] ->
  reshape_cols ld a = Ok (chunks (size s) ld (a_data a)) /\ length (a_data a) = size s * ld.
Proof.
  intros Hp Ha Hs. unfold arr_ok in Ha. apply Nat.eqb_eq in Ha. rewrite Hs, size_snoc in Ha.
  split; auto. unfold reshape_cols. destruct ld as [|ld]; [lia|]. simpl Nat.eqb. cbv iota.
  rewrite Ha, Nat.div_mul by lia. unfold reshape2. rewrite Ha, Nat.eqb_refl. auto.
Qed.
Lemma chunks_rows n d (l : list T) : length l = n * d -> Forall (fun row => length row = d) (chunks n d l).
Proof.
  intros H. apply Forall_forall. intros row Hin. apply In_nth_error in Hin. destruct Hin as [k Hk].
  assert (Hlt : k < n). { rewrite <- (chunks_length n d l). apply nth_error_Some. congruence. }
  rewrite nth_error_chunks in Hk by auto. injection Hk as <-. rewrite slice_length; nia.
Qed.
Lemma retract_block_ok ld x K : 0 < ld -> leaves x <> [] -> retract_arrays ld x K ->
  exists B, retract_block ld K = Ok B /\ length B = scalars x /\ Forall (fun row => length row = ld) B /\ concat B = concat (map a_data K) /\
    forall c, c < ld -> mcol c B = map (fun k => along ld K k c) (seq 0 (scalars x)).
Proof.
  intros Hp Hne [Hok Hsh].
  set (ss := map a_shape (leaves x)).
  assert (HF : Forall2 (fun a s => arr_ok a = true /\ a_shape a = s ++ [ld]) K ss).
  { assert (Hl : map a_shape K = map (fun s => s ++ [ld]) ss) by (unfold ss; rewrite map_map; auto).
    clearbody ss. clear Hne Hsh. revert ss Hl. induction Hok as [|a K Ha HK IH]; intros [|s ss] Hl; simpl in Hl; try discriminate; constructor.
    - injection Hl as -> _. auto.
    - apply IH. congruence. }
  set (ms := zipw (fun a s => chunks (size s) ld (a_data a)) K ss).
  assert (Htr : traverse (reshape_cols ld) K = Ok ms).
  { apply traverse_ok. unfold ms. clear - HF Hp. induction HF as [|a s K ss [H1 H2] HF IH]; simpl; constructor; auto.
    apply (reshape_cols_ok ld s a); auto. }
  assert (Hcs : concat (concat ms) = concat (map a_data K) /\ Forall (fun row => length row = ld) (concat ms) /\ length (concat ms) = list_sum (map size ss)).
  { unfold ms. clear - HF Hp. induction HF as [|a s K ss [H1 H2] HF (I1 & I2 & I3)]; simpl; auto.
    destruct (reshape_cols_ok ld s a Hp H1 H2) as [_ Hl]. split; [|split].
    - rewrite concat_app, I1, concat_chunks by auto. auto.
    - apply Forall_app; split; auto. apply chunks_rows; auto.
    - rewrite app_length, chunks_length, I3. auto. }
  destruct Hcs as (H1 & H2 & H3).
  assert (Hn : list_sum (map size ss) = scalars x) by (unfold ss, scalars; rewrite map_map; auto).
  unfold retract_block. rewrite Htr. cbn [bind]. exists (concat ms).
  split. { destruct ms as [|m ms'] eqn:Em; auto. exfalso. apply Hne. unfold ms in Em. destruct (leaves x); auto. inversion HF; subst; discriminate. }
  split; [congruence|]. split; auto. split; auto. intros c Hc. unfold mcol.
  apply (nth_ext _ _ n0 n0); rewrite !map_length; [rewrite seq_length; congruence|]. intros k Hk. rewrite H3, Hn in Hk.
  rewrite (nth_map' _ _ k n0 []) by lia. rewrite (nth_map' _ _ k n0 0) by (rewrite seq_length; lia). rewrite seq_nth by lia. simpl.
  unfold along. rewrite <- H1. pose proof (chunks_concat ld (concat ms) H2) as Hch.
  rewrite <- Hch at 1. erewrite (nth_error_nth (chunks _ _ _)); [|apply nth_error_chunks; lia].
  assert (Hlen : length (concat (concat ms)) = length (concat ms) * ld).
  { clear - H2. induction H2; simpl; auto. rewrite app_length. lia. }
  rewrite (slice_nth _ _ _ n0) by nia. rewrite (nth_map' _ _ c n0 0) by (rewrite seq_length; lia). rewrite seq_nth by lia. auto.
Qed.

(* one slot *)
Definition slot_ok (rd ld : nat) (x D : pytree T) (K : list (arr T)) (J : list (list T)) : Prop :=
  length J = rd /\ Forall (fun row => length row = ld) J /\
  forall r c, r < rd -> c < ld -> nth c (nth r J []) n0 = composed (scalars x) D ld K r c.
Lemma slot_value rd ld x D K : 0 < rd -> 0 < ld -> leaves x <> [] -> residual_arrays rd x D -> retract_arrays ld x K ->
  exists A B J, residual_block rd D = Ok A /\ retract_block ld K = Ok B /\ dot ld A B = Ok J /\ slot_ok rd ld x D K J.
Proof.
  intros Hr Hl Hne HD HK. destruct (residual_block_ok rd x D Hr Hne HD) as (A & EA & LA & HA).
  destruct (retract_block_ok ld x K Hl Hne HK) as (B & EB & LB & _ & _ & HB).
  exists A, B, (mmul ld A B). split; auto. split; auto. split.
  - unfold dot. replace (forallb _ A) with true; auto. symmetry. apply forallb_forall. intros row Hin. apply Nat.eqb_eq.
    apply (In_nth _ _ []) in Hin. destruct Hin as (r & Hlt & <-). rewrite HA by lia. rewrite map_length, seq_length. auto.
  - unfold mmul. split; [rewrite map_length; auto|]. split.
    + apply Forall_forall. intros row Hin. apply in_map_iff in Hin. destruct Hin as (y & <- & _). rewrite map_length, seq_length. auto.
    + intros r c Hrr Hc. rewrite (nth_map' _ _ r [] []) by lia. rewrite (nth_map' _ _ c n0 0) by (rewrite seq_length; lia).
      rewrite seq_nth by lia. simpl. rewrite HB by auto. rewrite HA by auto. unfold vdot, vmul, composed. rewrite zipw_map2. auto.
Qed.
End One.

Section All.
Context {T : Type} {N : Num T}.
Variable E : env T.
Variable AD : autodiff T.
Let C := e_cls E.

Lemma scalars_ravel t x : value_ok (C t) x -> scalars x = length (ravel x).
Proof.
  intros [H _]. rewrite (ravel_length x H). unfold scalars, tsize. clear. induction (leaves x); simpl; auto.
Qed.

Lemma default_value fd vals : auto_ok E AD fd vals ->
  exists Js, default_jacobians E AD fd vals = Ok Js /\ length Js = length (fd_types fd) /\
  forall i t x D J, nth_error (fd_types fd) i = Some t -> nth_error vals i = Some x ->
    nth_error (ad_residual AD fd vals) i = Some D -> nth_error Js i = Some J ->
    slot_ok (noise_dim (fd_noise fd)) (local_dim (C t)) x D (ad_retract AD t x) J.
Proof.
  intros (Hr & HV & HD). unfold default_jacobians. rewrite (Forall2_len _ _ _ HV), Nat.eqb_refl. cbn [assert_ bind].
  generalize dependent (ad_residual AD fd vals). intros Ds HD. set (rd := noise_dim (fd_noise fd)) in *. clearbody rd.
  assert (H : exists As Bs Js, traverse (residual_block rd) Ds = Ok As /\
    traverse (fun tx => retract_block (local_dim (e_cls E (fst tx))) (ad_retract AD (fst tx) (snd tx))) (combine (fd_types fd) vals) = Ok Bs /\
    length As = length Bs /\
    traverse (fun tab => dot (local_dim (e_cls E (fst tab))) (fst (snd tab)) (snd (snd tab))) (combine (fd_types fd) (combine As Bs)) = Ok Js /\
    length Js = length vals /\
    forall i t x D J, nth_error (fd_types fd) i = Some t -> nth_error vals i = Some x ->
      nth_error Ds i = Some D -> nth_error Js i = Some J -> slot_ok rd (local_dim (C t)) x D (ad_retract AD t x) J).
  { revert Ds HD. generalize dependent (fd_types fd). intros ts HV. induction HV as [|t x ts xs (Hv & Hne & Hld & HK) HV IH]; intros Ds HD.
    - inversion HD; subst. exists [], [], []. do 5 (split; [reflexivity|]). intros [|i]; discriminate.
    - inversion HD as [|? D ? Ds' HD1 HD2]; subst. destruct (IH Ds' HD2) as (As & Bs & Js & E1 & E2 & Hl & E3 & Hlj & Hall).
      destruct (slot_value rd (local_dim (e_cls E t)) x D (ad_retract AD t x) Hr Hld Hne HD1 HK) as (A & B & J & F1 & F2 & F3 & F4).
      exists (A :: As), (B :: Bs), (J :: Js). split; [|split; [|split; [|split; [|split]]]].
      + cbn [traverse]. rewrite F1. cbn [bind]. rewrite E1. auto.
      + cbn [combine traverse fst snd]. rewrite F2. cbn [bind]. rewrite E2. auto.
      + simpl. auto.
      + cbn [combine traverse fst snd]. rewrite F3. cbn [bind]. rewrite E3. auto.
      + simpl. auto.
      + intros [|i]; simpl; intros t' x' D' J' G1 G2 G3 G4; [injection G1 as <-; injection G2 as <-; injection G3 as <-; injection G4 as <-; exact F4 | eauto]. }
  destruct H as (As & Bs & Js & E1 & E2 & Hl & E3 & Hlj & Hall). rewrite E1. cbn [bind]. rewrite E2. cbn [bind]. rewrite Hl, Nat.eqb_refl.
  exists Js. split; auto.
Qed.
End All.
