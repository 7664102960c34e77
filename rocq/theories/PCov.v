(* The covariance recursion: termination, cache transparency, correctness. *)
From Coq Require Import List Arith Bool Reals Lra Lia.
From Verif Require Import Num NumR Py Arr MLayout MAssign MSparse MFactor MGraph MCov SpecLayout SpecSparse SpecNoise SpecCov PBase PLayout PVec PSum PTri.
Import ListNotations.

Section Gen.
Context {T : Type} {N : Num T}.
Variable S : scov T.
Let L := sc_L S.
Let n := length L.
Hypothesis Hlow : lower L.

Definition meas (i j : nat) : nat := 2 * (n - Nat.min i j) + (if Nat.eqb i j then 1 else 0).
Fixpoint pv (fuel i j : nat) : T :=
  match fuel with
  | O => n0
  | Datatypes.S f =>
      let row := Nat.min i j in
      let col := Nat.max i j in
      let s := fold_left (fun t rv => if Nat.eqb row (fst rv) then t else nadd t (nmul (snd rv) (pv f (fst rv) col))) (nth row L []) n0 in
      let d := nth row (sc_diag_inv S) n0 in
      if Nat.eqb row col then nmul d (nsub d s) else nmul (nneg d) s
  end.
Definition val (i j : nat) : T := pv (meas i j) i j.

Lemma meas_sym i j : meas i j = meas j i.
Proof. unfold meas. rewrite Nat.min_comm, Nat.eqb_sym. auto. Qed.
Lemma meas_le i j : meas i j <= 2 * n + 1.
Proof. unfold meas. destruct (Nat.eqb i j); lia. Qed.
Lemma meas_pos i j : i < n -> j < n -> 0 < meas i j.
Proof. unfold meas. lia. Qed.
Lemma col_entries row rv : row < n -> In rv (nth row L []) -> row <= fst rv < n.
Proof.
  intros Hr Hin. destruct (nth_error L row) as [c|] eqn:E; [|apply nth_error_None in E; unfold n in Hr; lia].
  rewrite (nth_error_nth _ _ _ E) in Hin. specialize (Hlow row c E). rewrite Forall_forall in Hlow. apply Hlow; auto.
Qed.
Lemma meas_step i j k : i < n -> j < n -> Nat.min i j < k -> k < n -> meas k (Nat.max i j) < meas i j.
Proof.
  intros Hi Hj Hk Hkn. unfold meas. destruct (Nat.eqb_spec k (Nat.max i j)), (Nat.eqb_spec i j); lia.
Qed.
Lemma fold_left_ext_in {A B} (f g : A -> B -> A) l a : (forall a x, In x l -> f a x = g a x) -> fold_left f l a = fold_left g l a.
Proof. revert a. induction l as [|x l IH]; intros a H; cbn; auto. rewrite H by (left; auto). apply IH. intros; apply H; right; auto. Qed.
Lemma pv_fuel f : forall f' i j, i < n -> j < n -> meas i j <= f -> meas i j <= f' -> pv f i j = pv f' i j.
Proof.
  induction f as [|f IH]; intros f' i j Hi Hj Hf Hf'; pose proof (meas_pos i j Hi Hj); [lia|]. destruct f' as [|f']; [lia|].
  cbn [pv].
  rewrite (fold_left_ext_in _ (fun t rv => if Nat.eqb (Nat.min i j) (fst rv) then t else nadd t (nmul (snd rv) (pv f' (fst rv) (Nat.max i j))))); auto.
  intros t rv Hin. destruct (Nat.eqb_spec (Nat.min i j) (fst rv)); auto.
  pose proof (col_entries (Nat.min i j) rv ltac:(lia) Hin). pose proof (meas_step i j (fst rv) Hi Hj ltac:(lia) ltac:(lia)).
  rewrite (IH f'); auto; lia.
Qed.
Lemma val_sym i j : val i j = val j i.
Proof. unfold val. rewrite (meas_sym j i). destruct (meas i j); auto. cbn [pv]. rewrite (Nat.min_comm j i), (Nat.max_comm j i). auto. Qed.
Lemma val_eq i j : i < n -> j < n ->
  val i j = (let row := Nat.min i j in let col := Nat.max i j in
    let s := fold_left (fun t rv => if Nat.eqb row (fst rv) then t else nadd t (nmul (snd rv) (val (fst rv) col))) (nth row L []) n0 in
    let d := nth row (sc_diag_inv S) n0 in
    if Nat.eqb row col then nmul d (nsub d s) else nmul (nneg d) s).
Proof.
  intros Hi Hj. unfold val at 1. pose proof (meas_pos i j Hi Hj). destruct (meas i j) as [|f] eqn:E; [lia|]. cbn [pv].
  rewrite (fold_left_ext_in _ (fun t rv => if Nat.eqb (Nat.min i j) (fst rv) then t else nadd t (nmul (snd rv) (val (fst rv) (Nat.max i j))))); auto.
  intros t rv Hin. destruct (Nat.eqb_spec (Nat.min i j) (fst rv)); auto.
  pose proof (col_entries (Nat.min i j) rv ltac:(lia) Hin). pose proof (meas_step i j (fst rv) Hi Hj ltac:(lia) ltac:(lia)).
  unfold val. rewrite (pv_fuel f (meas (fst rv) (Nat.max i j))); auto; lia.
Qed.
Lemma val_minmax i j : val (Nat.min i j) (Nat.max i j) = val i j.
Proof. destruct (Nat.le_ge_cases i j); [rewrite Nat.min_l, Nat.max_r by lia; auto | rewrite Nat.min_r, Nat.max_l by lia; apply val_sym]. Qed.

Definition cok (ch : cache (T := T)) : Prop := forall i j x, dict_get ch (i, j) = Some x -> x = val i j.
Lemma cok_set ch i j : cok ch -> cok (dict_set ch (i, j) (val i j)).
Proof.
  intros H i' j' x. destruct (eqb_dec (i, j) (i', j')) as [E|E].
  - injection E as <- <-. rewrite dict_get_set_same. congruence.
  - rewrite dict_get_set_other by auto. apply H.
Qed.
Lemma sum_sound get c cl es : (forall k ch x ch', In k (map fst es) -> c <> k -> cok ch -> get k cl ch = Some (x, ch') -> x = val k cl /\ cok ch') ->
  forall t ch s ch', cok ch -> sum_entries get c cl es t ch = Some (s, ch') ->
    s = fold_left (fun t rv => if Nat.eqb c (fst rv) then t else nadd t (nmul (snd rv) (val (fst rv) cl))) es t /\ cok ch'.
Proof.
  induction es as [|(k, v) es IH]; intros Hg t ch s ch' Hc H; cbn [sum_entries fold_left] in *.
  - injection H as <- <-. auto.
  - cbn [fst snd]. assert (Hg' : forall k ch x ch', In k (map fst es) -> c <> k -> cok ch -> get k cl ch = Some (x, ch') -> x = val k cl /\ cok ch')
      by (intros; apply (Hg k0 ch0); auto; right; auto).
    destruct (Nat.eqb_spec c k) as [|Hne]; [eapply IH; eauto|].
    destruct (get k cl ch) as [(x, ch1)|] eqn:E; [|discriminate].
    destruct (Hg k ch x ch1 (or_introl eq_refl) Hne Hc E) as (-> & Hc1). eapply IH; eauto.
Qed.
Lemma sum_total get c cl es : (forall k ch, In k (map fst es) -> c <> k -> cok ch -> exists x ch', get k cl ch = Some (x, ch') /\ cok ch') ->
  forall t ch, cok ch -> sum_entries get c cl es t ch <> None.
Proof.
  induction es as [|(k, v) es IH]; intros Hg t ch Hc; cbn [sum_entries]; [discriminate|].
  assert (Hg' : forall k ch, In k (map fst es) -> c <> k -> cok ch -> exists x ch', get k cl ch = Some (x, ch') /\ cok ch')
    by (intros; apply Hg; auto; right; auto).
  destruct (Nat.eqb_spec c k) as [|Hne]; [apply IH; auto|].
  destruct (Hg k ch (or_introl eq_refl) Hne Hc) as (x & ch1 & -> & Hc1). apply IH; auto.
Qed.
Lemma minmax_eqb i j : Nat.eqb (Nat.min i j) (Nat.max i j) = true -> Nat.min i j = Nat.max i j.
Proof. apply Nat.eqb_eq. Qed.
Lemma get_sound fuel : forall i j ch x ch', i < n -> j < n -> cok ch -> cov_get S fuel i j ch = Some (x, ch') -> x = val i j /\ cok ch'.
Proof.
  induction fuel as [|f IH]; intros i j ch x ch' Hi Hj Hc H; [discriminate|]. cbn [cov_get] in H.
  destruct (dict_get ch (Nat.min i j, Nat.max i j)) as [y|] eqn:Ed.
  - injection H as <- <-. split; auto. rewrite <- val_minmax. auto.
  - fold L in H.
    assert (Hrec : forall t ch0 s ch1, cok ch0 -> sum_entries (cov_get S f) (Nat.min i j) (Nat.max i j) (nth (Nat.min i j) L []) t ch0 = Some (s, ch1) ->
      s = fold_left (fun t rv => if Nat.eqb (Nat.min i j) (fst rv) then t else nadd t (nmul (snd rv) (val (fst rv) (Nat.max i j)))) (nth (Nat.min i j) L []) t /\ cok ch1).
    { apply sum_sound. intros k ch0 y ch1 Hk _ Hc0 Hg. apply in_map_iff in Hk. destruct Hk as (rv & <- & Hin).
      pose proof (col_entries (Nat.min i j) rv ltac:(lia) Hin). eapply IH; [| |exact Hc0|exact Hg]; lia. }
    assert (HV := val_eq i j Hi Hj). cbv zeta in HV.
    assert (Hv : forall ch0, cok ch0 -> cok (dict_set ch0 (Nat.min i j, Nat.max i j) (val i j))).
    { intros ch0 H0. rewrite <- (val_minmax i j) at 1. apply cok_set. auto. }
    destruct (Nat.eqb (Nat.min i j) (Nat.max i j)) eqn:Em.
    + pose proof (minmax_eqb i j Em) as Eq. rewrite <- Eq in H, Hrec, HV, Hv. clear Eq.
      destruct (sum_entries (cov_get S f) (Nat.min i j) (Nat.min i j) (nth (Nat.min i j) L []) n0 ch) as [(s, ch1)|] eqn:Es; [|discriminate].
      destruct (Hrec _ _ _ _ Hc Es) as (-> & Hc1). rewrite <- HV in H. injection H as <- <-. split; auto.
    + destruct (sum_entries (cov_get S f) (Nat.min i j) (Nat.max i j) (nth (Nat.min i j) L []) n0 ch) as [(s, ch1)|] eqn:Es; [|discriminate].
      destruct (Hrec _ _ _ _ Hc Es) as (-> & Hc1). rewrite <- HV in H. injection H as <- <-. split; auto.
Qed.
Lemma get_total fuel : forall i j ch, i < n -> j < n -> cok ch -> meas i j <= fuel -> exists ch', cov_get S fuel i j ch = Some (val i j, ch') /\ cok ch'.
Proof.
  induction fuel as [|f IH]; intros i j ch Hi Hj Hc Hf; [pose proof (meas_pos i j Hi Hj); lia|].
  destruct (cov_get S (Datatypes.S f) i j ch) as [(x, ch')|] eqn:E.
  - destruct (get_sound _ _ _ _ _ _ Hi Hj Hc E) as (-> & Hc'). eauto.
  - exfalso. cbn [cov_get] in E. destruct (dict_get ch (Nat.min i j, Nat.max i j)); [discriminate|]. fold L in E.
    assert (Hs : sum_entries (cov_get S f) (Nat.min i j) (Nat.max i j) (nth (Nat.min i j) L []) n0 ch <> None).
    { apply sum_total; auto. intros k ch0 Hk Hne Hc0. apply in_map_iff in Hk. destruct Hk as (rv & <- & Hin).
      pose proof (col_entries (Nat.min i j) rv ltac:(lia) Hin). pose proof (meas_step i j (fst rv) Hi Hj ltac:(lia) ltac:(lia)).
      destruct (IH (fst rv) (Nat.max i j) ch0) as (ch1 & E1 & H1); auto; try lia. eauto. }
    destruct (Nat.eqb (Nat.min i j) (Nat.max i j)) eqn:Em.
    + rewrite <- (minmax_eqb i j Em) in E, Hs. destruct (sum_entries _ _ _ _ _ _) as [(s, ch1)|]; [discriminate | auto].
    + destruct (sum_entries _ _ _ _ _ _) as [(s, ch1)|]; [discriminate | auto].
Qed.
Lemma history_cok ch : history S ch -> cok ch.
Proof.
  induction 1 as [|fuel i j ch x ch' H IH Hi Hj E]; [intros i j x H; discriminate|]. apply (get_sound _ _ _ _ _ _ Hi Hj IH E).
Qed.
Lemma history_get ch fuel i j : history S ch -> i < n -> j < n -> 2 * n + 1 <= fuel ->
  exists ch', cov_get S fuel i j ch = Some (val i j, ch') /\ history S ch'.
Proof.
  intros Hh Hi Hj Hf. destruct (get_total fuel i j ch Hi Hj (history_cok _ Hh)) as (ch' & E & _); [pose proof (meas_le i j); lia|].
  exists ch'. split; auto. apply (h_query S fuel i j ch (val i j) ch'); auto.
Qed.
Lemma history_row fuel i js ch : history S ch -> i < n -> Forall (fun j => j < n) js -> 2 * n + 1 <= fuel ->
  exists ch', cov_row S fuel i js ch = Some (map (val i) js, ch') /\ history S ch'.
Proof.
  intros Hh Hi Hjs Hf. revert ch Hh. induction Hjs as [|j js Hj Hjs IH]; intros ch Hh; cbn [cov_row map]; [eauto|].
  destruct (history_get ch fuel i j Hh Hi Hj Hf) as (ch1 & -> & H1). destruct (IH ch1 H1) as (ch2 & -> & H2). eauto.
Qed.
Lemma history_rows fuel is js ch : history S ch -> Forall (fun i => i < n) is -> Forall (fun j => j < n) js -> 2 * n + 1 <= fuel ->
  exists ch', cov_rows S fuel is js ch = Some (map (fun i => map (val i) js) is, ch') /\ history S ch'.
Proof.
  intros Hh His Hjs Hf. revert ch Hh. induction His as [|i is Hi His IH]; intros ch Hh; cbn [cov_rows map]; [eauto|].
  destruct (history_row fuel i js ch Hh Hi Hjs Hf) as (ch1 & -> & H1). destruct (IH ch1 H1) as (ch2 & -> & H2). eauto.
Qed.
Lemma cache_transparent : exists v : nat -> nat -> T, (forall i j, v i j = v j i) /\
  forall ch fuel i j, history S ch -> i < n -> j < n ->
    (forall x ch', cov_get S fuel i j ch = Some (x, ch') -> x = v i j /\ history S ch') /\
    (2 * n + 1 <= fuel -> exists ch', cov_get S fuel i j ch = Some (v i j, ch')).
Proof.
  exists val. split; [exact val_sym|]. intros ch fuel i j Hh Hi Hj. split.
  - intros x ch' E. destruct (get_sound _ _ _ _ _ _ Hi Hj (history_cok _ Hh) E) as (Hx & _). split; [exact Hx | exact (h_query S fuel i j ch x ch' Hh Hi Hj E)].
  - intros Hf. destruct (history_get ch fuel i j Hh Hi Hj Hf) as (ch' & E & _). eauto.
Qed.
End Gen.

Local Open Scope R_scope.
Section Real.
Variable S : scov R.
Let L := sc_L S.
Let n := length L.
Hypothesis Hst : factor_stored S.

Definition eentry (es : list (nat * R)) (k : nat) : R := vsum (map snd (filter (fun rv => Nat.eqb (fst rv) k) es)).
Lemma eentry_cons rv es k : eentry (rv :: es) k = (if Nat.eqb (fst rv) k then snd rv else 0) + eentry es k.
Proof. unfold eentry. cbn [filter]. destruct (Nat.eqb (fst rv) k); cbn [map]; rewrite ?vsum_cons; lra. Qed.
Lemma fold_entries c (g : nat -> R) m es : Forall (fun rv => (fst rv < m)%nat) es -> forall t : R,
  fold_left (fun t rv => if Nat.eqb c (fst rv) then t else nadd t (nmul (snd rv) (g (fst rv)))) es t =
    t + sumn m (fun k => if Nat.eqb c k then 0 else eentry es k * g k).
Proof.
  induction 1 as [|rv es Hrv Hes IH]; intros t.
  - cbn [fold_left]. rewrite sumn_zero; [lra|]. intros k _. unfold eentry. cbn. rewrite vsum_nil. destruct (Nat.eqb c k); lra.
  - cbn [fold_left]. rewrite IH.
    assert (H : sumn m (fun k => if Nat.eqb c k then 0 else eentry (rv :: es) k * g k) =
      (if Nat.eqb c (fst rv) then 0 else snd rv * g (fst rv)) + sumn m (fun k => if Nat.eqb c k then 0 else eentry es k * g k)).
    { rewrite <- (sumn_delta m (fst rv) (fun k => if Nat.eqb c k then 0 else snd rv * g k)) by auto. rewrite <- sumn_plus.
      apply sumn_ext. intros k _. rewrite eentry_cons. destruct (Nat.eqb c k), (Nat.eqb (fst rv) k); lra. }
    rewrite H. destruct (Nat.eqb c (fst rv)); rn; lra.
Qed.
Lemma centry_eentry i j : centry L i j = eentry (nth j L []) i.
Proof. reflexivity. Qed.
Lemma col_bound j : Forall (fun rv => (fst rv < n)%nat) (nth j L []).
Proof.
  destruct (nth_error L j) as [c|] eqn:E.
  - rewrite (nth_error_nth _ _ _ E). destruct Hst as (Hl & _). specialize (Hl j c E). eapply Forall_impl; [|exact Hl]. cbn. intros rv Hrv. exact (proj2 Hrv).
  - apply nth_error_None in E. rewrite nth_overflow by auto. constructor.
Qed.
Lemma factor_tri : tri n (centry L).
Proof.
  destruct Hst as (Hl & Hd). split; [|intros i Hi; apply Hd; auto].
  intros i j Hij Hj. rewrite centry_eentry. unfold eentry.
  replace (filter (fun rv => Nat.eqb (fst rv) i) (nth j L [])) with (@nil (nat * R)); [apply vsum_nil|].
  symmetry. destruct (nth_error L j) as [c|] eqn:E; [|apply nth_error_None in E; unfold n in Hj; lia].
  rewrite (nth_error_nth _ _ _ E). specialize (Hl j c E). clear E. induction Hl as [|rv c Hrv Hl IH]; cbn; auto.
  destruct (Nat.eqb_spec (fst rv) i); [lia | auto].
Qed.
Lemma val_inverse s : meq n (mprod n (llt L) s) meye -> forall m i j, (i < n)%nat -> (j < n)%nat -> (meas S i j <= m)%nat -> val S i j = s i j.
Proof.
  intros Hs.
  destruct (inv_symmetric n (llt L) s (aat_symmetric n (centry L)) Hs) as (Hsym & _).
  destruct (column_recursion n (centry L) s factor_tri Hs) as (Hoff & Hdiag).
  assert (Hlow : lower (sc_L S)) by apply Hst.
  assert (Hd : forall i, (i < n)%nat -> centry L i i <> 0 /\ nth i (sc_diag_inv S) 0 = 1 / centry L i i) by apply Hst.
  induction m as [|m IH]; intros i j Hi Hj Hm; [pose proof (meas_pos S i j Hi Hj); lia|].
  rewrite (val_eq S Hlow i j Hi Hj). cbv zeta. fold L.
  set (row := Nat.min i j). set (col := Nat.max i j).
  assert (Hrow : (row < n)%nat) by (unfold row; lia). assert (Hcol : (col < n)%nat) by (unfold col; lia).
  assert (Hsum : fold_left (fun t rv => if Nat.eqb row (fst rv) then t else nadd t (nmul (snd rv) (val S (fst rv) col))) (nth row L []) n0
    = sumn n (fun k => centry L k row * s k col) - centry L row row * s row col).
  { rewrite (fold_left_ext_in _ (fun t rv => if Nat.eqb row (fst rv) then t else nadd t (nmul (snd rv) (s (fst rv) col)))).
    - rewrite (fold_entries row (fun k => s k col) n) by apply col_bound. rewrite <- (sumn_delta n row (fun k => centry L k row * s k col)) by auto.
      rewrite <- sumn_minus. change n0 with 0. rewrite Rplus_0_l. apply sumn_ext. intros k Hk. rewrite centry_eentry. destruct (Nat.eqb row k); lra.
    - intros t rv Hin. destruct (Nat.eqb_spec row (fst rv)); auto. f_equal. f_equal.
      pose proof (col_entries S Hlow row rv Hrow Hin). pose proof (meas_step S i j (fst rv) Hi Hj ltac:(unfold row in *; lia) ltac:(lia)).
      apply IH; unfold col, n, L in *; lia. }
  rewrite Hsum. change n0 with 0. destruct (Hd row Hrow) as (Hnz & ->).
  assert (Hsij : s row col = s i j).
  { unfold row, col. destruct (Nat.le_ge_cases i j); [rewrite Nat.min_l, Nat.max_r by lia; auto | rewrite Nat.min_r, Nat.max_l by lia; apply (Hsym i j); auto]. }
  destruct (Nat.eqb_spec row col) as [E|E].
  - rewrite <- Hsij, <- E. rewrite Hdiag by auto. rn. field. auto.
  - rewrite <- Hsij. rewrite (Hoff row col) by (unfold row, col in *; lia). rn. field. auto.
Qed.
Lemma inverse_exists : exists s, minverse n (llt L) s.
Proof.
  exists (mprod n (mtr (trinv (centry L))) (trinv (centry L))).
  apply (inv_symmetric n); [apply aat_symmetric|]. apply llt_inverse. split; [apply trinv_right, factor_tri | apply trinv_left, factor_tri].
Qed.
Lemma covariance_inverse :
  (exists s, minverse n (llt L) s) /\
  forall s, minverse n (llt L) s ->
    (forall i j, (i < n)%nat -> (j < n)%nat -> s i j = s j i) /\
    forall ch fuel i j, history S ch -> (i < n)%nat -> (j < n)%nat -> (2 * n + 1 <= fuel)%nat ->
      exists ch', cov_get S fuel i j ch = Some (s i j, ch') /\ history S ch'.
Proof.
  split; [exact inverse_exists|]. intros s (Hs & _). split.
  - destruct (inv_symmetric n (llt L) s (aat_symmetric n (centry L)) Hs) as (Hsym & _). intros i j Hi Hj. symmetry. apply (Hsym i j Hi Hj).
  - intros ch fuel i j Hh Hi Hj Hf. destruct (history_get S (proj1 Hst) ch fuel i j Hh Hi Hj Hf) as (ch' & E & H').
    rewrite (val_inverse s Hs (meas S i j) i j Hi Hj (Nat.le_refl _)) in E. eauto.
Qed.

Lemma csc_dense_shaped : shaped n n (csc_dense n L).
Proof.
  unfold csc_dense. split; [rewrite map_length, seq_length; auto|]. apply Forall_forall. intros row Hin. apply in_map_iff in Hin.
  destruct Hin as (i & <- & _). rewrite map_length, seq_length. auto.
Qed.
Lemma csc_dense_ent i j : (i < n)%nat -> (j < n)%nat -> ent (csc_dense n L) i j = centry L i j.
Proof.
  intros Hi Hj. unfold ent, csc_dense. rewrite (nth_map' _ _ _ _ 0%nat) by (rewrite seq_length; auto). rewrite seq_nth by auto.
  rewrite nth_list by auto. cbn [plus]. rewrite centry_eentry. generalize (nth j L []). induction l as [|rv l IH]; [reflexivity|].
  rewrite eentry_cons, <- IH. cbn [fold_right]. rn. destruct (Nat.eqb (fst rv) i); lra.
Qed.
Lemma nth_mcol M m k i l : shaped m k M -> (i < k)%nat -> (l < m)%nat -> nth l (mcol i M) 0 = ent M l i.
Proof. intros (Hm & _) Hi Hl. unfold mcol, ent. rewrite (nth_map' _ _ _ _ ([] : list R)) by lia. auto. Qed.
Lemma dense_agree inv ch fuel : history S ch -> l_dim (sc_layout S) = n -> (2 * n + 1 <= fuel)%nat ->
  is_inverse n (csc_dense n L) (inv (csc_dense n L)) ->
  minverse n (llt L) (ent (cov_dense_inverse inv S)) /\
  exists ch', cov_dense_recursive S fuel ch = Some (cov_dense_inverse inv S, ch') /\ history S ch'.
Proof.
  intros Hh Hdim Hf (HW & HI). set (W := inv (csc_dense n L)) in *.
  assert (Hent : meq n (ent (cov_dense_inverse inv S)) (mprod n (mtr (ent W)) (ent W))).
  { intros i j Hi Hj. unfold cov_dense_inverse. fold L n W. unfold ent at 1. rewrite (nth_map' _ _ _ _ 0%nat) by (rewrite seq_length; auto).
    rewrite seq_nth by auto. rewrite nth_list by auto. cbn [plus].
    assert (Hl : forall q, length (mcol q W) = n) by (intros q; unfold mcol; rewrite map_length; apply HW).
    rewrite (vdot_sumn n) by auto. apply sumn_ext. intros l Hl'. rewrite !(nth_mcol W n n) by auto. auto. }
  assert (HLW : minverse n (centry L) (ent W)).
  { split; intros i j Hi Hj; destruct (HI i j Hi Hj) as (H1 & H2); unfold meye; [rewrite <- H2 | rewrite <- H1]; unfold mprod; apply sumn_ext; intros k Hk; rewrite csc_dense_ent; auto. }
  assert (Hinv : minverse n (llt L) (ent (cov_dense_inverse inv S))).
  { apply (inv_symmetric n); [apply aat_symmetric|].
    apply meq_trans with (mprod n (llt L) (mprod n (mtr (ent W)) (ent W))); [apply mprod_ext; [apply meq_refl | auto]|]. apply llt_inverse; auto. }
  split; auto.
  unfold cov_dense_recursive, marginal_of_indices. rewrite Hdim.
  assert (Hall : Forall (fun i => (i < n)%nat) (seq 0 n)) by (apply Forall_forall; intros i Hi; apply in_seq in Hi; lia).
  destruct (history_rows S (proj1 Hst) fuel (seq 0 n) (seq 0 n) ch Hh Hall Hall Hf) as (ch' & E & H'). exists ch'. split; auto.
  rewrite E. f_equal. f_equal. unfold cov_dense_inverse. fold L n W. apply map_ext_in. intros i Hi. apply map_ext_in. intros j Hj.
  apply in_seq in Hi. apply in_seq in Hj. destruct Hinv as (Hinv & _).
  rewrite (val_inverse _ Hinv (meas S i j) i j) by lia. unfold ent, cov_dense_inverse. fold L n W.
  rewrite (nth_map' _ _ _ _ 0%nat) by (rewrite seq_length; lia). rewrite seq_nth by lia. rewrite nth_list by lia. auto.
Qed.
End Real.
