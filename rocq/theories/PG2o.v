(* Proofs: the g2o reader. *)
From Coq Require Import Arith Bool ZArith String List Lia.
From Verif Require Import Num Py Arr MG2o SpecG2o PBase.
Import ListNotations.
Local Open Scope list_scope.

Lemma NoDup_app_intro {A} (l1 l2 : list A) : NoDup l1 -> NoDup l2 -> (forall x, In x l1 -> ~ In x l2) -> NoDup (l1 ++ l2).
Proof.
  induction l1 as [|a l1 IH]; intros H1 H2 H3; auto. inversion H1; subst. simpl. constructor.
  - rewrite in_app_iff. intros [H|H]; [auto | apply (H3 a); simpl; auto].
  - apply IH; auto. intros x Hx. apply H3. simpl; auto.
Qed.

Lemma combine_app_eq {A B} (a1 a2 : list A) (b1 b2 : list B) : length a1 = length b1 ->
  combine (a1 ++ a2) (b1 ++ b2) = combine a1 b1 ++ combine a2 b2.
Proof. revert b1. induction a1 as [|x a1 IH]; intros [|y b1] H; try discriminate; auto. simpl. f_equal. apply IH. auto. Qed.

Lemma nth_error_ext {A} (a b : list A) : (forall j, nth_error a j = nth_error b j) -> a = b.
Proof.
  revert b. induction a as [|x a IH]; intros [|y b] H; auto; try (specialize (H 0); discriminate).
  pose proof (H 0) as H0. injection H0 as ->. f_equal. apply IH. intros j. apply (H (S j)).
Qed.

(* ----- the upper triangle ----- *)
Section Triu.
Context {T : Type} {N : Num T}.

Lemma row_start_S n i : row_start n (S i) = row_start n i + (n - i).
Proof. unfold row_start. rewrite seq_S, map_app, list_sum_app. simpl. lia. Qed.

Lemma triu_upto_length n i : length (flat_map (fun i => map (fun j => (i, j)) (seq i (n - i))) (seq 0 i)) = row_start n i.
Proof.
  induction i; auto. rewrite seq_S, flat_map_app, app_length, IHi, row_start_S. simpl.
  rewrite app_nil_r, map_length, seq_length. auto.
Qed.
Lemma triu_length n : length (triu n) = row_start n n.
Proof. apply triu_upto_length. Qed.

Lemma row_start_gauss n i : i <= n -> 2 * row_start n i + i * i = 2 * n * i + i.
Proof. induction i; intros Hi; [unfold row_start; simpl; lia|]. rewrite row_start_S. assert (i <= n) as Hin by lia. apply IHi in Hin. nia. Qed.
Lemma row_start_tri n : 2 * row_start n n = n * (n + 1).
Proof. pose proof (row_start_gauss n n (le_n n)). nia. Qed.

Lemma triu_nth n i j d : i <= j -> j < n -> nth (row_start n i + (j - i)) (triu n) d = (i, j).
Proof.
  intros Hij Hj. unfold triu.
  assert (Es : seq 0 n = seq 0 i ++ seq i (n - i)) by (rewrite <- (Nat.add_0_l i) at 3; rewrite <- seq_app; f_equal; lia).
  rewrite Es, flat_map_app.
  rewrite app_nth2; rewrite triu_upto_length; [|lia].
  replace (row_start n i + (j - i) - row_start n i) with (j - i) by lia.
  destruct (n - i) as [|m] eqn:Em; [lia|]. cbn [seq flat_map]. rewrite Em.
  rewrite app_nth1 by (rewrite map_length, seq_length; lia).
  rewrite (nth_indep _ d (i, 0)) by (rewrite map_length, seq_length; lia).
  rewrite (map_nth (fun j => (i, j))), seq_nth by lia. f_equal. lia.
Qed.

Lemma triu_in n i j : In (i, j) (triu n) <-> i <= j < n.
Proof.
  unfold triu. rewrite in_flat_map. split.
  - intros (k & Hk & H). apply in_map_iff in H. destruct H as (l & E & Hl). inversion E; subst.
    apply in_seq in Hl, Hk. lia.
  - intros H. exists i. split; [apply in_seq; lia|]. apply in_map_iff. exists j. split; auto. apply in_seq. lia.
Qed.

Lemma triu_nodup n : NoDup (triu n).
Proof.
  unfold triu. generalize (seq 0 n), (seq_NoDup n 0). induction l as [|i l IH]; intros Hnd; cbn [flat_map]; [constructor|].
  inversion Hnd; subst. apply NoDup_app_intro.
  - apply FinFun.Injective_map_NoDup; [intros a b E; inversion E; auto | apply seq_NoDup].
  - apply IH; auto.
  - intros [a b] Ha Hb. apply in_map_iff in Ha. destruct Ha as (? & E & _). inversion E; subst.
    apply in_flat_map in Hb. destruct Hb as (k & Hk & Hb). apply in_map_iff in Hb. destruct Hb as (? & E2 & _).
    inversion E2; subst. auto.
Qed.

Lemma nth_map_in {A B} (f : A -> B) l i d d' : i < length l -> nth i (map f l) d = f (nth i l d').
Proof. intros Hi. rewrite (nth_indep _ d (f d')) by (rewrite map_length; auto). apply map_nth. Qed.

(* ----- assignments into a matrix ----- *)
Lemma set_entry_shaped m n (M : list (list T)) p x : gshaped m n M -> gshaped m n (set_entry M p x).
Proof.
  intros [Hl HF]. split; unfold set_entry.
  - rewrite map_length, combine_length, seq_length. lia.
  - apply Forall_forall. intros row Hr. apply in_map_iff in Hr. destruct Hr as ([k row0] & <- & Hin).
    apply in_combine_r in Hin. rewrite Forall_forall in HF. apply HF in Hin. cbn [fst snd].
    destruct (Nat.eqb k (fst p)); auto. rewrite map_length, combine_length, seq_length. lia.
Qed.

Lemma nth_enum {A} (d : A) l i : i < length l -> nth i (combine (seq 0 (length l)) l) (0, d) = (i, nth i l d).
Proof. intros Hi. rewrite combine_nth by apply seq_length. rewrite seq_nth; auto. Qed.

Lemma set_entry_ent m n (M : list (list T)) a b x i j : gshaped m n M -> i < m -> j < n ->
  gent (set_entry M (a, b) x) i j = if (Nat.eqb i a && Nat.eqb j b)%bool then x else gent M i j.
Proof.
  intros [Hl HF] Hi Hj. unfold gent, set_entry. cbn [fst snd].
  assert (Hrow : length (nth i M []) = n) by (rewrite Forall_forall in HF; apply HF, nth_In; lia).
  rewrite (nth_map_in _ _ _ _ (0, [])) by (rewrite combine_length, seq_length; lia).
  rewrite nth_enum by lia. cbn [fst snd].
  destruct (Nat.eqb i a); cbn [andb]; auto.
  rewrite (nth_map_in _ _ _ _ (0, n0)) by (rewrite combine_length, seq_length; lia).
  rewrite nth_enum by lia. reflexivity.
Qed.

Lemma set_entries m n pos : forall (xs : list T) M, gshaped m n M -> length xs = length pos -> NoDup pos ->
  let M' := fold_left (fun m px => set_entry m (fst px) (snd px)) (combine pos xs) M in
  gshaped m n M' /\
  (forall i j, i < m -> j < n -> ~ In (i, j) pos -> gent M' i j = gent M i j) /\
  (forall k i j, i < m -> j < n -> k < length pos -> nth k pos (0, 0) = (i, j) -> gent M' i j = nth k xs n0).
Proof.
  induction pos as [|[a b] pos IH]; intros xs M HM Hl Hnd; destruct xs as [|x xs]; try discriminate.
  - cbn. split; [auto|]. split; [auto|]. intros. lia.
  - inversion Hnd; subst. cbn [combine fold_left fst snd]. injection Hl as Hl.
    destruct (IH xs (set_entry M (a, b) x) (set_entry_shaped m n M (a, b) x HM) Hl H2) as (H3 & H4 & H5).
    split; [exact H3|]. split.
    + intros i j Hi Hj Hn. rewrite H4; auto; [|intro; apply Hn; right; auto].
      rewrite (set_entry_ent m n) by auto. destruct (Nat.eqb_spec i a), (Nat.eqb_spec j b); auto.
      subst. exfalso. apply Hn. left. auto.
    + intros [|k] i j Hi Hj Hk E; cbn [nth] in *.
      * inversion E; subst. rewrite H4 by auto. rewrite (set_entry_ent m n) by auto. rewrite !Nat.eqb_refl. auto.
      * apply (H5 k); auto. simpl in Hk. lia.
Qed.

Lemma transpose_shaped n (M : list (list T)) : gshaped n n (transpose_sq n M).
Proof.
  split; unfold transpose_sq; [rewrite map_length, seq_length; auto|].
  apply Forall_forall. intros row Hr. apply in_map_iff in Hr. destruct Hr as (j & <- & _). rewrite map_length, seq_length. auto.
Qed.
Lemma transpose_ent n (M : list (list T)) i j : i < n -> j < n -> gent (transpose_sq n M) i j = gent M j i.
Proof.
  intros Hi Hj. unfold gent, transpose_sq.
  rewrite (nth_map_in _ _ _ _ 0), seq_nth by (rewrite ?seq_length; auto).
  rewrite (nth_map_in _ _ _ _ 0), seq_nth by (rewrite ?seq_length; auto). reflexivity.
Qed.

Lemma set_triu_ok n (M : list (list T)) comps : gshaped n n M -> length comps = row_start n n ->
  exists M', set_triu n M comps = Ok M' /\ gshaped n n M' /\
    (forall i j, i <= j -> j < n -> gent M' i j = nth (row_start n i + (j - i)) comps n0) /\
    (forall i j, j < i -> i < n -> gent M' i j = gent M i j).
Proof.
  intros HM Hc. unfold set_triu.
  assert (Hc' : match comps with [x] => repeat x (length (triu n)) | _ => comps end = comps).
  { destruct comps as [|x [|]]; auto. rewrite triu_length, <- Hc. reflexivity. }
  rewrite Hc', triu_length, Hc, Nat.eqb_refl.
  destruct (set_entries n n (triu n) comps M HM) as (H1 & H2 & H3); [rewrite triu_length; auto | apply triu_nodup|].
  eexists. split; [reflexivity|]. split; [exact H1|]. split.
  - intros i j Hij Hj. apply H3; try lia; [|apply triu_nth; auto].
    assert (Hlt : row_start n i + (n - i) <= row_start n n).
    { rewrite <- row_start_S. assert (i < n) as Hin by lia. clear -Hin. induction n as [|n IH] in i, Hin |- *; [lia|].
      assert (Hmono : forall N a b, a <= b -> row_start N a <= row_start N b).
      { intros N a b Hab. induction Hab; auto. rewrite row_start_S. lia. }
      apply Hmono. lia. }
    rewrite triu_length. lia.
  - intros i j Hij Hi. apply H2; try lia. rewrite triu_in. lia.
Qed.

Lemma read_precision_ok n (comps : list T) : length comps = row_start n n ->
  exists M, read_precision n comps = Ok M /\ is_symmetric_of n comps M.
Proof.
  intros Hc. unfold read_precision.
  destruct (set_triu_ok n (repeat (repeat n0 n) n) comps) as (M1 & E1 & S1 & U1 & _); auto.
  { split; [apply repeat_length|]. apply Forall_forall. intros r Hr. apply repeat_spec in Hr. subst. apply repeat_length. }
  rewrite E1. cbn [bind].
  destruct (set_triu_ok n (transpose_sq n M1) comps (transpose_shaped n M1) Hc) as (M2 & E2 & S2 & U2 & L2).
  exists M2. split; auto. split; auto. intros i j Hi Hj. unfold upper_pos. destruct (le_lt_dec i j) as [Hij|Hij].
  - rewrite U2 by auto. rewrite Nat.min_l, Nat.max_r by lia. auto.
  - rewrite L2 by auto. rewrite transpose_ent by auto. rewrite U1 by lia. rewrite Nat.min_r, Nat.max_l by lia. auto.
Qed.

Lemma set_triu_one n (M : list (list T)) x : set_triu n M [x] = set_triu n M (repeat x (row_start n n)).
Proof.
  unfold set_triu. rewrite triu_length.
  destruct (row_start n n) as [|[|m]] eqn:E; reflexivity.
Qed.
Lemma read_precision_one n (x : T) : read_precision n [x] = read_precision n (repeat x (row_start n n)).
Proof. unfold read_precision. rewrite set_triu_one. destruct (set_triu _ _ _); auto. cbn [bind]. apply set_triu_one. Qed.
Lemma read_precision_bad n (comps : list T) : length comps <> row_start n n -> length comps <> 1 ->
  read_precision n comps = Err ValueError.
Proof.
  intros H1 H2. unfold read_precision, set_triu at 1. rewrite triu_length.
  assert (Hc' : match comps with [x] => repeat x (row_start n n) | _ => comps end = comps).
  { destruct comps as [|x [|]]; auto. simpl in H2. lia. }
  rewrite Hc'. destruct (Nat.eqb_spec (length comps) (row_start n n)); [lia|]. reflexivity.
Qed.

Lemma gshaped_ext m n (A B : list (list T)) : gshaped m n A -> gshaped m n B ->
  (forall i j, i < m -> j < n -> gent A i j = gent B i j) -> A = B.
Proof.
  intros [La FA] [Lb FB] H. apply (nth_ext _ _ [] []); [lia|]. intros i Hi.
  rewrite Forall_forall in FA, FB.
  assert (HA : length (nth i A []) = n) by (apply FA, nth_In; auto).
  assert (HB : length (nth i B []) = n) by (apply FB, nth_In; lia).
  apply (nth_ext _ _ n0 n0); [lia|]. intros j Hj. apply H; lia.
Qed.
Lemma symmetric_unique n (comps : list T) A B : is_symmetric_of n comps A -> is_symmetric_of n comps B -> A = B.
Proof. intros [S1 E1] [S2 E2]. apply (gshaped_ext n n); auto. intros i j Hi Hj. rewrite E1, E2; auto. Qed.
End Triu.

Section Reader.
Context {T P : Type} {N : Num T}.
Variable parse_int : string -> result Z.
Variable parse_float : string -> result T.
Variable se2_xy_theta : T -> T -> T -> P.
Variable se3_wxyz_xyz : list T -> P.
Variable se3_quat_trans : list T -> list T -> P.
Variable cholesky : list (list T) -> result (list (list T)).
Variable limit : Z.
Notation pl := (parse_line parse_int parse_float se2_xy_theta se3_wxyz_xyz se3_quat_trans cholesky limit).
Notation rd := (reads parse_int parse_float se2_xy_theta se3_wxyz_xyz se3_quat_trans cholesky limit).
Notation bl := (builds parse_int parse_float se2_xy_theta se3_wxyz_xyz se3_quat_trans cholesky limit).

Lemma sqrt_precision_iff n comps w : length comps = row_start n n ->
  sqrt_precision cholesky n comps = Ok w <-> sqrt_info cholesky n comps w.
Proof.
  intros Hc. unfold sqrt_precision. destruct (read_precision_ok n comps Hc) as (M & E & S). rewrite E. cbn [bind]. split.
  - intros H. bind_inv. exists M, x. split; auto. split; auto. split; [apply transpose_shaped|]. intros. apply transpose_ent; auto.
  - intros (M' & c & S' & E' & Sw & Hw). rewrite (symmetric_unique n comps M M') by auto. rewrite E'. cbn [bind]. f_equal.
    apply (gshaped_ext n n); auto; [apply transpose_shaped|]. intros. rewrite transpose_ent, Hw; auto.
Qed.

Definition st (vs : list (pose_kind * P)) (fs : list (gfactor (T := T) (P := P))) :=
  mkP (map fst (numbered vs)) (numbered vs) fs.

Lemma numbered_app vs k p : numbered (vs ++ [(k, p)]) = numbered vs ++ [(mkPvar (length vs) k, p)] :> list (pvar * P).
Proof.
  unfold numbered. rewrite app_length. cbn [length]. rewrite Nat.add_1_r, seq_S.
  rewrite combine_app_eq by (rewrite seq_length; auto). rewrite map_app. reflexivity.
Qed.
Lemma numbered_length vs : length (numbered vs : list (pvar * P)) = length vs.
Proof. unfold numbered. rewrite map_length, combine_length, seq_length. lia. Qed.
Lemma numbered_nth vs j : nth_error (numbered vs : list (pvar * P)) j = option_map (fun kp => (mkPvar j (fst kp), snd kp)) (nth_error vs j).
Proof.
  induction vs as [|[k p] vs IH] using rev_ind; [destruct j; auto|].
  rewrite numbered_app. destruct (lt_dec j (length vs)) as [Hj|Hj].
  - rewrite !nth_error_app1 by (rewrite ?numbered_length; auto). auto.
  - rewrite !nth_error_app2 by (rewrite ?numbered_length; lia). rewrite numbered_length.
    destruct (j - length vs) as [|m] eqn:Em; cbn [nth_error option_map fst snd]; [replace j with (length vs) by lia; auto|]. destruct m; auto.
Qed.

Lemma add_pose_st vs fs k p : add_pose (st vs fs) k p = st (vs ++ [(k, p)]) fs.
Proof. unfold add_pose, st. cbn [p_vars p_poses p_factors]. rewrite map_length, numbered_length, numbered_app, map_app. reflexivity. Qed.

Lemma py_index_iff vs k i v : (py_index (map fst (numbered vs : list (pvar * P))) i = Ok v /\ pv_kind v = k) <-> vertex_at vs k i v.
Proof.
  unfold py_index, vertex_at. rewrite map_length, numbered_length. set (m := if Z.ltb i 0 then (i + Z.of_nat (length vs))%Z else i).
  assert (Hn : forall j, nth_error (map fst (numbered vs : list (pvar * P))) j = option_map (fun kp => mkPvar j (fst kp)) (nth_error vs j)).
  { intros j. rewrite nth_error_map, numbered_nth. destruct (nth_error vs j); auto. }
  rewrite Hn. split.
  - intros (H & Hk). destruct (Z.ltb_spec m 0) as [Hm|Hm]; [discriminate|].
    destruct (nth_error vs (Z.to_nat m)) as [[k' p]|] eqn:E; cbn [option_map fst] in H; [|discriminate].
    injection H as <-. cbn [pv_kind] in Hk. subst k'. exists (Z.to_nat m), p. split; auto. split; auto.
    unfold m in *. destruct (Z.ltb_spec i 0); [right|left]; lia.
  - intros (j & p & E & -> & Hi). assert (Hj : j < length vs) by (apply nth_error_Some; congruence).
    assert (m = Z.of_nat j) as Em. { unfold m. destruct (Z.ltb_spec i 0); lia. }
    rewrite Em. destruct (Z.ltb_spec (Z.of_nat j) 0); [lia|]. rewrite Nat2Z.id, E. auto.
Qed.

Lemma kind_eqb_ok a b : kind_eqb a b = true <-> a = b.
Proof. destruct a, b; simpl; split; congruence. Qed.

Lemma between_iff vs k ia ib t w (f : gfactor (T := T) (P := P)) :
  (a <- py_index (map fst (numbered vs : list (pvar * P))) ia ;; b <- py_index (map fst (numbered vs : list (pvar * P))) ib ;; between_make a b k t w) = Ok f <->
  exists va vb, vertex_at vs k ia va /\ vertex_at vs k ib vb /\ f = GBetween va vb t w.
Proof.
  split.
  - intros H. bind_inv. unfold between_make in H1. bind_inv. apply kind_eqb_ok in H1, H2.
    exists x, x0. rewrite <- !py_index_iff. intuition congruence.
  - intros (va & vb & Ha & Hb & ->). apply py_index_iff in Ha, Hb. destruct Ha as [Ea Ka], Hb as [Eb Kb].
    rewrite Ea, Eb. cbn [bind]. unfold between_make. rewrite Ka, Kb. destruct k; reflexivity.
Qed.

Lemma floats_iff ss (xs : list T) : traverse parse_float ss = Ok xs <-> floats parse_float ss xs.
Proof. apply traverse_ok. Qed.

Definition steps (vs : list (pose_kind * P)) (fs : list (gfactor (T := T) (P := P))) (it : item) (s' : pstate) : Prop :=
  match it with
  | Vertex k i p => i = Z.of_nat (length vs) /\ s' = st (vs ++ [(k, p)]) fs
  | Edge k a b t w => exists va vb, vertex_at vs k a va /\ vertex_at vs k b vb /\ s' = st vs (fs ++ [GBetween va vb t w])
  | Ignored => s' = st vs fs
  end.

Local Open Scope string_scope. Local Open Scope list_scope.

Lemma line_sound vs fs parts s' : pl (st vs fs) parts = Ok s' -> exists it, rd (length vs) parts it /\ steps vs fs it s'.
Proof.
  intros H. unfold parse_line in H. destruct parts as [|tag args]; [discriminate|].
  cbn [p_vars p_poses st] in H. rewrite ?map_length, numbered_length in H.
  destruct (String.eqb_spec tag "VERTEX_SE2") as [->|_].
  { destruct (Z.ltb_spec limit (Z.of_nat (length vs))) as [Hl|Hl].
    - injection H as <-. exists Ignored. split; [apply r_v2_beyond; auto | reflexivity].
    - destruct args as [|si [|sx [|sy [|sth [|]]]]]; try discriminate. bind_inv.
      match goal with E : Z.eqb _ _ = true |- _ => apply Z.eqb_eq in E end. subst. eexists. split; [apply r_v2; eauto; repeat constructor; eauto|].
      split; [reflexivity | apply add_pose_st]. }
  destruct (String.eqb_spec tag "EDGE_SE2") as [->|_].
  { destruct args as [|sa [|sb rest]]; try discriminate. bind_inv.
    destruct (Z.ltb_spec limit x) as [Ha|Ha]; [injection H1 as <-; exists Ignored; split; [eapply r_e2_beyond; eauto|reflexivity]|].
    destruct (Z.ltb_spec limit x0) as [Hb|Hb]; [injection H1 as <-; exists Ignored; split; [eapply r_e2_beyond; eauto|reflexivity]|].
    cbn [orb] in H1. apply bind_ok in H1. destruct H1 as (txy & H1 & Hr). destruct txy as [|x1 [|x2 [|x3 [|]]]]; try discriminate.
    apply bind_ok in Hr. destruct Hr as (x4 & H2 & Hr). apply bind_ok in Hr. destruct Hr as (x5 & H3 & Hr).
    apply bind_ok in Hr. destruct Hr as (x6 & H4 & Hr). apply bind_ok in Hr. destruct Hr as (x7 & H5 & Hr).
    apply bind_ok in Hr. destruct Hr as (x8 & H6 & Hr). injection Hr as <-.
    apply floats_iff in H1, H2.
    assert (Hf : floats parse_float rest (x1 :: x2 :: x3 :: x4)).
    { rewrite <- (firstn_skipn 3 rest). change (x1 :: x2 :: x3 :: x4) with ([x1; x2; x3] ++ x4)%list. apply Forall2_app; auto. }
    assert (Hb' : exists va vb, vertex_at vs SE2 x va /\ vertex_at vs SE2 x0 vb /\ x8 = GBetween va vb (se2_xy_theta x1 x2 x3) x5).
    { apply between_iff. rewrite H4. cbn [bind]. rewrite H5. exact H6. }
    destruct Hb' as (va & vb & Va & Vb & ->).
    destruct (Nat.eq_dec (length x4) 6) as [Hc|Hc].
    - exists (Edge SE2 x x0 (se2_xy_theta x1 x2 x3) x5). split.
      + eapply r_e2; eauto. apply sqrt_precision_iff; auto.
      + exists va, vb. auto.
    - destruct (Nat.eq_dec (length x4) 1) as [Hc1|Hc1].
      + destruct x4 as [|c [|]]; try discriminate.
        exists (Edge SE2 x x0 (se2_xy_theta x1 x2 x3) x5). split.
        * eapply r_e2_one; eauto. apply sqrt_precision_iff; [reflexivity|]. unfold sqrt_precision in *. rewrite read_precision_one in H3. exact H3.
        * exists va, vb. auto.
      + exfalso. unfold sqrt_precision in H3. rewrite read_precision_bad in H3 by auto. discriminate. }
  destruct (String.eqb_spec tag "VERTEX_SE3:QUAT") as [->|_].
  { destruct args as [|si [|sx [|sy [|sz [|qx [|qy [|qz [|qw [|]]]]]]]]]; try discriminate. bind_inv.
    match goal with E : Z.eqb _ _ = true |- _ => apply Z.eqb_eq in E end. subst.
    match goal with E : traverse _ _ = _ |- _ => apply floats_iff in E; rename E into H1 end. inversion H1; subst. inversion H5; subst. inversion H7; subst. inversion H9; subst.
    inversion H11; subst. inversion H13; subst. inversion H15; subst. inversion H17; subst.
    eexists. split; [apply r_v3; eauto; repeat constructor; eauto|]. split; [reflexivity | apply add_pose_st]. }
  destruct (String.eqb_spec tag "EDGE_SE3:QUAT") as [->|_]; [|discriminate].
  destruct args as [|sa [|sb rest]]; try discriminate. apply bind_ok in H. destruct H as (x & H & Hr).
  apply bind_ok in Hr. destruct Hr as (x0 & H0 & Hr). apply bind_ok in Hr. destruct Hr as (x1 & H1 & Hr).
  apply bind_ok in Hr. destruct Hr as (u & H2 & Hr). apply assert_ok in H2. apply bind_ok in Hr. destruct Hr as (x3 & H3 & Hr).
  apply bind_ok in Hr. destruct Hr as (x4 & H4 & Hr). apply bind_ok in Hr. destruct Hr as (x5 & H5 & Hr).
  apply bind_ok in Hr. destruct Hr as (x6 & H6 & Hr). injection Hr as <-.
  apply Nat.eqb_eq in H2. apply floats_iff in H1.
  do 7 (destruct x1 as [|? x1]; [discriminate|]). cbn [skipn firstn] in *.
  assert (Hb' : exists va vb, vertex_at vs SE3 x va /\ vertex_at vs SE3 x0 vb /\ x6 = GBetween va vb (se3_quat_trans [t2; t3; t4; t5] [t; t0; t1]) x3).
  { apply between_iff. rewrite H4. cbn [bind]. rewrite H5. exact H6. }
  destruct Hb' as (va & vb & Va & Vb & ->).
  assert (Hc : length x1 = 21) by (cbn [length] in H2; lia).
  exists (Edge SE3 x x0 (se3_quat_trans [t2; t3; t4; t5] [t; t0; t1]) x3). split.
  - eapply r_e3; eauto. apply sqrt_precision_iff; auto.
  - exists va, vb. auto.
Qed.

Ltac inv_fl := unfold floats in *; repeat match goal with
  | H : Forall2 _ _ (_ :: _) |- _ => inversion H; subst; clear H
  | H : Forall2 _ _ [] |- _ => inversion H; subst; clear H end.
Ltac rw_parse := repeat (match goal with
  | H : parse_float _ = Ok _ |- _ => rewrite H
  | H : parse_int _ = Ok _ |- _ => rewrite H end; cbn [bind]).

Lemma between_complete vs k ia ib va vb t w : vertex_at vs k ia va -> vertex_at vs k ib vb ->
  exists a b, py_index (map fst (numbered vs : list (pvar * P))) ia = Ok a /\ py_index (map fst (numbered vs : list (pvar * P))) ib = Ok b /\
    between_make a b k t w = Ok (GBetween va vb t w : gfactor (T := T) (P := P)).
Proof.
  intros Va Vb. pose proof (proj2 (between_iff vs k ia ib t w _) (ex_intro _ va (ex_intro _ vb (conj Va (conj Vb eq_refl))))) as Hb.
  apply bind_ok in Hb. destruct Hb as (a & Ha & Hb). apply bind_ok in Hb. destruct Hb as (b & Hb' & Hb). exists a, b. auto.
Qed.

Lemma line_complete vs fs parts it s' : rd (length vs) parts it -> steps vs fs it s' -> pl (st vs fs) parts = Ok s'.
Proof.
  intros Hr Hs. destruct Hr; unfold parse_line; cbn [steps] in Hs;
    cbn [String.eqb Ascii.eqb Bool.eqb p_vars p_poses st]; rewrite ?map_length, ?numbered_length.
  - destruct Hs as (-> & ->). destruct (Z.ltb_spec limit (Z.of_nat (length vs))); [lia|].
    inv_fl. rw_parse. rewrite Z.eqb_refl. cbn [assert_ bind]. rewrite <- add_pose_st. reflexivity.
  - destruct (Z.ltb_spec limit (Z.of_nat (length vs))); [subst; auto|lia].
  - destruct Hs as (va & vb & Va & Vb & ->). rw_parse.
    destruct (Z.ltb_spec limit a); [lia|]. destruct (Z.ltb_spec limit b); [lia|]. cbn [orb].
    inv_fl. cbn [firstn skipn traverse]. rw_parse.
    match goal with E : Forall2 _ _ comps |- _ => apply traverse_ok in E; rewrite E end. cbn [bind].
    match goal with E : sqrt_info _ _ _ _ |- _ => apply sqrt_precision_iff in E; [rewrite E | auto] end. cbn [bind].
    destruct (between_complete vs SE2 a b va vb (se2_xy_theta x y t) w Va Vb) as (a' & b' & Ea & Eb & Ef).
    rewrite Ea. cbn [bind]. rewrite Eb. cbn [bind]. rewrite Ef. reflexivity.
  - destruct Hs as (va & vb & Va & Vb & ->). rw_parse.
    destruct (Z.ltb_spec limit a); [lia|]. destruct (Z.ltb_spec limit b); [lia|]. cbn [orb].
    inv_fl. cbn [firstn skipn traverse]. rw_parse.
    match goal with E : sqrt_info _ _ _ _ |- _ => apply sqrt_precision_iff in E; [|auto]; rename E into Hsq end.
    unfold sqrt_precision in *. rewrite read_precision_one.
    change (repeat c (row_start 3 3)) with [c; c; c; c; c; c]. rewrite Hsq. cbn [bind].
    destruct (between_complete vs SE2 a b va vb (se2_xy_theta x y t) w Va Vb) as (a' & b' & Ea & Eb & Ef).
    rewrite Ea. cbn [bind]. rewrite Eb. cbn [bind]. rewrite Ef. reflexivity.
  - rw_parse. destruct (Z.ltb_spec limit a), (Z.ltb_spec limit b); cbn [orb]; subst; auto; lia.
  - destruct Hs as (-> & ->). rw_parse. rewrite Z.eqb_refl. cbn [assert_ bind].
    inv_fl. cbn [traverse]. rw_parse. rewrite <- add_pose_st. reflexivity.
  - destruct Hs as (va & vb & Va & Vb & ->). rw_parse.
    match goal with E : floats _ _ _ |- _ => apply floats_iff in E; rewrite E end. cbn [bind length].
    match goal with E : List.length comps = 21 |- _ => rewrite E end. cbn [Nat.eqb assert_ bind skipn firstn].
    match goal with E : sqrt_info _ _ _ _ |- _ => apply sqrt_precision_iff in E; [rewrite E | auto] end. cbn [bind].
    destruct (between_complete vs SE3 a b va vb (se3_quat_trans [q0; q1; q2; q3] [x; y; z]) w Va Vb) as (a' & b' & Ea & Eb & Ef).
    rewrite Ea. cbn [bind]. rewrite Eb. cbn [bind]. rewrite Ef. reflexivity.
Qed.

Lemma file_iff lines : forall vs0 fs0 s, foldM pl lines (st vs0 fs0) = Ok s <->
  exists vs fs, bl vs0 lines vs fs /\ s = st (vs0 ++ vs) (fs0 ++ fs).
Proof.
  induction lines as [|parts lines IH]; intros vs0 fs0 s; cbn [foldM]; split.
  - intros [= <-]. exists [], []. split; [constructor | rewrite !app_nil_r; auto].
  - intros (vs & fs & Hb & ->). inversion Hb; subst. rewrite !app_nil_r. auto.
  - intros H. apply bind_ok in H. destruct H as (s1 & H1 & H). apply line_sound in H1. destruct H1 as ([k i p | k a b t w |] & Hr & Hs); cbn [steps] in Hs.
    + destruct Hs as (-> & ->). apply IH in H. destruct H as (vs & fs & Hb & ->). exists ((k, p) :: vs), fs.
      split; [econstructor; eauto|]. rewrite <- app_assoc. reflexivity.
    + destruct Hs as (va & vb & Va & Vb & ->). apply IH in H. destruct H as (vs & fs & Hb & ->).
      exists vs, (GBetween va vb t w :: fs). split; [eapply b_edge; eauto|]. rewrite <- app_assoc. reflexivity.
    + subst s1. apply IH in H. destruct H as (vs & fs & Hb & ->). exists vs, fs. split; [eapply b_ignored; eauto | auto].
  - intros (vs & fs & Hb & ->). apply bind_ok. inversion Hb; subst.
    + exists (st (vs0 ++ [(k, p)]) fs0). split; [eapply line_complete; eauto; split; auto|]. apply IH. eexists _, _. split; [eassumption|].
      rewrite <- app_assoc. reflexivity.
    + exists (st vs0 (fs0 ++ [GBetween va vb t w])). split; [eapply line_complete; eauto; exists va, vb; auto|]. apply IH.
      eexists _, _. split; [eassumption|]. rewrite <- app_assoc. reflexivity.
    + exists (st vs0 fs0). split; [eapply line_complete; eauto; reflexivity|]. apply IH. exists vs, fs. auto.
Qed.

Lemma parse_iff lines fs ps :
  parse_g2o parse_int parse_float se2_xy_theta se3_wxyz_xyz se3_quat_trans cholesky limit lines = Ok (fs, ps) <->
  exists k p vs es, bl [] lines ((k, p) :: vs) es /\ ps = numbered ((k, p) :: vs) /\
    fs = es ++ [GPrior (mkPvar 0 k) p (repeat (nmul n1 (nlit 100 1)) (match k with SE2 => 3 | SE3 => 6 end))].
Proof.
  unfold parse_g2o. change (mkP [] [] []) with (st [] []).
  assert (Hrep : forall k, map (fun _ : nat => nmul n1 (nlit 100 1)) (seq 0 (tangent_dim k)) = repeat (nmul n1 (nlit 100 1)) (tangent_dim k))
    by (intros [|]; reflexivity).
  split.
  - intros H. apply bind_ok in H. destruct H as (s & H1 & H). apply file_iff in H1. destruct H1 as (vs & es & Hb & ->).
    cbn [app st p_poses p_factors] in H. destruct vs as [|[k p] vs]; [discriminate|].
    change (numbered ((k, p) :: vs)) with ((mkPvar 0 k, p) :: tl (numbered ((k, p) :: vs))) in H at 1. cbv iota beta in H.
    cbn [pv_kind] in H. rewrite Hrep in H. injection H as <- <-. exists k, p, vs, es. auto.
  - intros (k & p & vs & es & Hb & -> & ->). apply bind_ok. exists (st ((k, p) :: vs) es). split.
    + apply file_iff. exists ((k, p) :: vs), es. auto.
    + cbn [st p_poses p_factors].
      change (numbered ((k, p) :: vs)) with ((mkPvar 0 k, p) :: tl (numbered ((k, p) :: vs))) at 1. cbv iota beta.
      cbn [pv_kind]. rewrite Hrep. reflexivity.
Qed.

(* ----- consequences of [builds] ----- *)
Lemma reads_tag n parts it : rd n parts it -> exists t args, parts = t :: args /\ In t tags.
Proof. unfold tags. destruct 1; do 2 eexists; (split; [reflexivity|]); simpl; auto 6. Qed.
Lemma builds_tags vs0 lines vs fs : bl vs0 lines vs fs -> Forall (fun parts => exists t args, parts = t :: args /\ In t tags) lines.
Proof. induction 1; constructor; auto; eapply reads_tag; eauto. Qed.

Lemma bad_line l1 parts l2 : (forall t args, parts = t :: args -> ~ In t tags) ->
  exists e, parse_g2o parse_int parse_float se2_xy_theta se3_wxyz_xyz se3_quat_trans cholesky limit (l1 ++ parts :: l2) = Err e.
Proof.
  intros Hp. destruct (parse_g2o _ _ _ _ _ _ _ _) as [[fs ps]|e] eqn:E; [|eauto]. exfalso.
  apply parse_iff in E. destruct E as (k & p & vs & es & Hb & _). apply builds_tags in Hb.
  apply Forall_elt in Hb. destruct Hb as (t & args & E & Ht). eapply Hp; eauto.
Qed.

Lemma builds_app l1 : forall vs0 l2 vs fs, bl vs0 (l1 ++ l2) vs fs ->
  exists va fa vb fb, bl vs0 l1 va fa /\ bl (vs0 ++ va) l2 vb fb /\ vs = va ++ vb /\ fs = fa ++ fb.
Proof.
  induction l1 as [|parts l1 IH]; intros vs0 l2 vs fs H; cbn [app] in H.
  - exists [], [], vs, fs. rewrite app_nil_r. split; [constructor|auto].
  - inversion H; subst.
    + match goal with E : builds _ _ _ _ _ _ _ _ (l1 ++ l2) _ _ |- _ => destruct (IH _ _ _ _ E) as (va & fa & vb & fb & Hb1 & Hb2 & -> & ->) end.
      exists ((k, p) :: va), fa, vb, fb. rewrite <- app_assoc in Hb2. split; [econstructor; eauto | auto].
    + match goal with E : builds _ _ _ _ _ _ _ _ (l1 ++ l2) _ _ |- _ => destruct (IH _ _ _ _ E) as (va' & fa & vb' & fb & Hb1 & Hb2 & -> & ->) end.
      exists va', (GBetween va vb t w :: fa), vb', fb. split; [eapply b_edge; eauto | auto].
    + match goal with E : builds _ _ _ _ _ _ _ _ (l1 ++ l2) _ _ |- _ => destruct (IH _ _ _ _ E) as (va & fa & vb & fb & Hb1 & Hb2 & -> & ->) end.
      exists va, fa, vb, fb. split; [eapply b_ignored; eauto | auto].
Qed.

Lemma builds_fun vs0 lines : forall vs fs vs' fs', bl vs0 lines vs fs -> bl vs0 lines vs' fs' -> vs = vs' /\ fs = fs'.
Proof.
  intros vs fs vs' fs' H1 H2.
  assert (E1 : foldM pl lines (st vs0 []) = Ok (st (vs0 ++ vs) ([] ++ fs))) by (apply file_iff; eauto).
  assert (E2 : foldM pl lines (st vs0 []) = Ok (st (vs0 ++ vs') ([] ++ fs'))) by (apply file_iff; eauto).
  rewrite E1 in E2. injection E2 as _ E2 E3. split; auto. apply (app_inv_head vs0).
  revert E2. generalize (vs0 ++ vs), (vs0 ++ vs'). intros a b E. clear -E.
  apply nth_error_ext. intros j. assert (Ej : nth_error (numbered a : list (pvar * P)) j = nth_error (numbered b) j) by (rewrite E; auto).
  rewrite !numbered_nth in Ej. destruct (nth_error a j) as [[k p]|], (nth_error b j) as [[k' p']|]; cbn [option_map fst snd] in Ej; congruence.
Qed.

Notation parse := (parse_g2o parse_int parse_float se2_xy_theta se3_wxyz_xyz se3_quat_trans cholesky limit).

Lemma split_builds l1 parts l2 vs1 fs1 fs ps : bl [] l1 vs1 fs1 -> parse (l1 ++ parts :: l2) = Ok (fs, ps) ->
  exists vs fs', bl vs1 (parts :: l2) vs fs'.
Proof.
  intros H1 H. apply parse_iff in H. destruct H as (k & p & vs & es & Hb & _). apply builds_app in Hb.
  destruct Hb as (va & fa & vb & fb & Ha & Hb & _). destruct (builds_fun _ _ _ _ _ _ H1 Ha) as [<- <-]. eauto.
Qed.

Lemma misnumbered l1 parts l2 vs1 fs1 i : bl [] l1 vs1 fs1 -> vertex_number parse_int parts i -> (Z.of_nat (length vs1) <= limit)%Z ->
  i <> Z.of_nat (length vs1) -> exists e, parse (l1 ++ parts :: l2) = Err e.
Proof.
  intros H1 (tag & si & args & -> & Hsi & Htag) Hl Hi.
  destruct (parse _) as [[fs ps]|e] eqn:E; [|eauto]. exfalso. destruct (split_builds _ _ _ _ _ _ _ H1 E) as (vs & fs' & Hb).
  inversion Hb; subst;
    match goal with E : reads _ _ _ _ _ _ _ _ _ _ |- _ => inversion E; subst end; try (destruct Htag; discriminate); try lia; congruence.
Qed.

Lemma dangling l1 parts l2 vs1 fs1 k a b : bl [] l1 vs1 fs1 -> edge_ends parse_int parts k a b ->
  (k = SE2 -> a <= limit /\ b <= limit)%Z -> (Z.of_nat (length vs1) <= a \/ Z.of_nat (length vs1) <= b)%Z ->
  exists e, parse (l1 ++ parts :: l2) = Err e.
Proof.
  intros H1 (sa & sb & args & -> & Ha & Hb) Hk Hl.
  destruct (parse _) as [[fs ps]|e] eqn:E; [|eauto]. exfalso. destruct (split_builds _ _ _ _ _ _ _ H1 E) as (vs & fs' & Hbl).
  assert (Hat : forall k' i v, vertex_at vs1 k' i v -> (i < Z.of_nat (length vs1))%Z).
  { intros k' i v (j & p & Hj & _ & Hi). assert (j < length vs1) by (apply nth_error_Some; congruence). lia. }
  inversion Hbl; subst;
    match goal with E : reads _ _ _ _ _ _ _ _ _ _ |- _ => inversion E; subst end; try (destruct k; discriminate);
    repeat match goal with X : vertex_at _ _ _ _ |- _ => apply Hat in X end;
    repeat match goal with X : parse_int _ = Ok _, Y : parse_int _ = Ok _ |- _ => rewrite X in Y; injection Y as Y end; subst; try lia.
  all: destruct k; try discriminate; specialize (Hk eq_refl); lia.
Qed.

Lemma limit_count lines : forall vs0 vs fs, bl vs0 lines vs fs -> (0 <= limit)%Z -> Forall (fun kp => fst kp = SE2) vs ->
  length vs = min (se2_vertices lines) (Z.to_nat limit + 1 - length vs0).
Proof.
  unfold se2_vertices. induction 1 as [vs0 | vs0 parts lines k p vs fs Hr Hb IH | vs0 parts lines k a b t w va vb vs fs Hr Va Vb Hb IH | vs0 parts lines vs fs Hr Hb IH]; intros Hl HF.
  - reflexivity.
  - inversion HF; subst. cbn [fst] in *. subst. specialize (IH Hl H2). rewrite app_length in IH. cbn [length] in IH.
    inversion Hr; subst. cbn [filter String.eqb Ascii.eqb Bool.eqb length]. rewrite IH. lia.
  - rewrite (IH Hl HF). inversion Hr; subst; cbn [filter String.eqb Ascii.eqb Bool.eqb length]; auto.
  - rewrite (IH Hl HF). inversion Hr; subst; cbn [filter String.eqb Ascii.eqb Bool.eqb length]; auto. lia.
Qed.

(* an edge's variables and their numbers *)
Lemma edge_in vs0 lines vs fs : bl vs0 lines vs fs -> Forall (fun f => exists va vb t w, f = GBetween va vb t w /\
  (pv_id va < length vs0 + length vs) /\ (pv_id vb < length vs0 + length vs) /\ pv_kind va = pv_kind vb) fs.
Proof.
  induction 1 as [vs0 | vs0 parts lines k p vs fs Hr Hb IH | vs0 parts lines k a b t w va vb vs fs Hr Va Vb Hb IH | vs0 parts lines vs fs Hr Hb IH]; auto.
  - eapply Forall_impl; [|exact IH]. cbn beta. intros f (va & vb & t & w & -> & H1 & H2 & H3). rewrite app_length in *. cbn [length] in *.
    exists va, vb, t, w. repeat split; auto; lia.
  - constructor; auto. destruct Va as (j & p & Hj & -> & _), Vb as (j' & p' & Hj' & -> & _).
    assert (j < length vs0) by (apply nth_error_Some; congruence). assert (j' < length vs0) by (apply nth_error_Some; congruence).
    eexists _, _, _, _. split; [reflexivity|]. cbn [pv_id pv_kind]. repeat split; lia.
Qed.
End Reader.

(* ----- the text ----- *)
Section Text.
Notation la := list_ascii_of_string.

Lemma la_app a b : la (a ++ b)%string = la a ++ la b.
Proof. induction a; simpl; congruence. Qed.
Lemma la_spaces n : la (spaces n) = repeat space n.
Proof. apply list_ascii_of_string_of_list_ascii. Qed.

Lemma lstrip_spaces pre s : Forall (fun c => is_space c = true) pre -> lstrip (pre ++ s) = lstrip s.
Proof. induction 1 as [|c pre Hc _ IH]; auto. simpl. rewrite Hc. auto. Qed.
Lemma lstrip_id c s : is_space c = false -> lstrip (c :: s) = c :: s.
Proof. intros H. simpl. rewrite H. auto. Qed.
Lemma Forall_rev' {A} (Q : A -> Prop) l : Forall Q l -> Forall Q (rev l).
Proof. rewrite !Forall_forall. intros H x Hx. apply H. apply in_rev. auto. Qed.

Lemma strip_core pre post c s d s' : Forall (fun c => is_space c = true) pre -> Forall (fun c => is_space c = true) post ->
  is_space c = false -> is_space d = false -> c :: s = s' ++ [d] -> strip (pre ++ (c :: s) ++ post) = c :: s.
Proof.
  intros Hpre Hpost Hc Hd E. unfold strip. rewrite lstrip_spaces by auto. cbn [app]. rewrite lstrip_id by auto.
  change (c :: s ++ post) with ((c :: s) ++ post). rewrite rev_app_distr, lstrip_spaces by (apply Forall_rev'; auto).
  rewrite E, rev_app_distr. cbn [rev app]. rewrite lstrip_id by auto. cbn [rev]. rewrite rev_involutive. auto.
Qed.
Lemma strip_blank pre : Forall (fun c => is_space c = true) pre -> strip pre = [].
Proof. intros H. unfold strip. rewrite <- (app_nil_r pre), lstrip_spaces by auto. reflexivity. Qed.

Lemma split_app d w s : Forall (fun c => c <> d) w -> split_on d (w ++ d :: s) = w :: split_on d s.
Proof.
  induction 1 as [|c w Hc _ IH]; cbn [app split_on].
  - rewrite (proj2 (Ascii.eqb_eq d d)); auto.
  - destruct (Ascii.eqb_spec c d); [contradiction|]. rewrite IH. auto.
Qed.
Lemma split_one d w : Forall (fun c => c <> d) w -> split_on d w = [w].
Proof. induction 1 as [|c w Hc _ IH]; cbn [split_on]; auto. destruct (Ascii.eqb_spec c d); [contradiction|]. rewrite IH. auto. Qed.
Lemma split_repeat d k s : split_on d (repeat d k ++ s) = repeat [] k ++ split_on d s.
Proof. induction k; auto. cbn [repeat app split_on]. rewrite (proj2 (Ascii.eqb_eq d d)) by auto. rewrite IHk. auto. Qed.

Lemma white_space c : white c <-> is_space c = true.
Proof.
  unfold white, is_space. generalize (Ascii.nat_of_ascii c). intros n. rewrite orb_true_iff, !andb_true_iff, !Nat.leb_le. simpl. lia.
Qed.
Lemma word_chars w : is_word w -> Forall (fun c => is_space c = false) (la w).
Proof.
  intros [_ H]. eapply Forall_impl; [|exact H]. cbn beta. intros c Hc. destruct (is_space c) eqn:E; auto.
  exfalso. apply Hc. apply white_space; auto.
Qed.
Lemma word_no_space w : is_word w -> Forall (fun c => c <> space) (la w).
Proof. intros H. apply word_chars in H. eapply Forall_impl; [|exact H]. cbn beta. intros c Hc ->. discriminate. Qed.
Lemma word_nonempty w : is_word w -> nonempty (la w) = true.
Proof. intros [H _]. destruct w; [congruence | reflexivity]. Qed.
Lemma filter_repeat k : filter nonempty (repeat [] k) = [].
Proof. induction k; auto. Qed.

Lemma split_spaced ws : forall seps, Forall is_word ws -> length seps = length ws ->
  filter nonempty (split_on space (la (spaced (combine ws seps)))) = map la ws.
Proof.
  induction ws as [|w ws IH]; intros seps HF Hl; destruct seps as [|k seps]; try discriminate; auto.
  inversion HF; subst. cbn [combine]. injection Hl as Hl. specialize (IH seps H2 Hl).
  destruct ws as [|w' ws]; destruct seps as [|k' seps]; try discriminate.
  - cbn [combine spaced map]. rewrite split_one by (apply word_no_space; auto). cbn [filter]. rewrite word_nonempty; auto.
  - change (spaced ((w, k) :: combine (w' :: ws) (k' :: seps))) with (w ++ spaces (S k) ++ spaced (combine (w' :: ws) (k' :: seps)))%string.
    rewrite !la_app, la_spaces. cbn [repeat]. change ((space :: repeat space k) ++ la (spaced (combine (w' :: ws) (k' :: seps))))
      with (space :: repeat space k ++ la (spaced (combine (w' :: ws) (k' :: seps)))).
    rewrite split_app by (apply word_no_space; auto). cbn [filter]. rewrite word_nonempty by auto.
    rewrite split_repeat, filter_app, filter_repeat. cbn [app]. rewrite IH. reflexivity.
Qed.

Lemma spaced_ends ws : forall seps, ws <> [] -> Forall is_word ws -> length seps = length ws ->
  (exists c s, is_space c = false /\ la (spaced (combine ws seps)) = c :: s) /\
  (exists d s, is_space d = false /\ la (spaced (combine ws seps)) = s ++ [d]).
Proof.
  induction ws as [|w ws IH]; intros seps Hne HF Hl; destruct seps as [|k seps]; try discriminate; [congruence|].
  inversion HF; subst. injection Hl as Hl. pose proof (word_chars _ H1) as Hw2. destruct H1 as [Hw1 _].
  assert (Hfirst : exists c s, is_space c = false /\ la w = c :: s).
  { destruct w as [|c w]; [congruence|]. simpl in *. inversion Hw2; subst. eauto. }
  assert (Hlast : exists d s, is_space d = false /\ la w = s ++ [d]).
  { destruct (exists_last (l := la w)) as (s & d & E); [destruct w; [congruence | discriminate]|]. exists d, s. split; auto.
    rewrite E in Hw2. apply Forall_app in Hw2. destruct Hw2 as [_ Hw2]. inversion Hw2; auto. }
  destruct ws as [|w' ws]; destruct seps as [|k' seps]; try discriminate.
  - cbn [combine spaced]. auto.
  - change (spaced (combine (w :: w' :: ws) (k :: k' :: seps))) with (w ++ spaces (S k) ++ spaced (combine (w' :: ws) (k' :: seps)))%string.
    destruct (IH (k' :: seps) ltac:(discriminate) H2 Hl) as (_ & d & s & Hd & E). rewrite !la_app. split.
    + destruct Hfirst as (c & s' & Hc & E'). rewrite E'. exists c. eexists. split; auto. cbn [app]. reflexivity.
    + exists d, (la w ++ la (spaces (S k)) ++ s). split; auto. rewrite E, !app_assoc. auto.
Qed.

Lemma blank_spaces s : blank s -> Forall (fun c => is_space c = true) (la s).
Proof. intros H. eapply Forall_impl; [|exact H]. cbn beta. intros c [Hc _]. apply white_space; auto. Qed.

Lemma words_shows l ws tail : shows l ws -> Forall (fun c => is_space c = true) tail -> words (la l ++ tail) = ws.
Proof.
  intros (pre & post & seps & Hpre & Hpost & HF & Hl & ->) Ht. unfold words. fold space. rewrite !la_app.
  assert (Hback : forall l : list string, map string_of_list_ascii (map la l) = l).
  { intros l0. rewrite map_map. rewrite <- (map_id l0) at 2. apply map_ext. apply string_of_list_ascii_of_string. }
  destruct ws as [|w ws].
  - destruct seps; [|discriminate]. cbn [combine spaced]. rewrite strip_blank; auto.
    cbn [list_ascii_of_string app]. repeat (apply Forall_app; split); auto; apply blank_spaces; auto.
  - destruct (spaced_ends (w :: ws) seps ltac:(discriminate) HF Hl) as ((c & s & Hc & E1) & (d & s' & Hd & E2)).
    rewrite <- !app_assoc, E1. rewrite (strip_core (la pre) (la post ++ tail) c s d s'); auto; try congruence.
    + rewrite <- E1, split_spaced by auto. apply Hback.
    + apply blank_spaces; auto.
    + apply Forall_app. split; auto. apply blank_spaces; auto.
Qed.

Lemma shows_no_newline l ws : shows l ws -> Forall (fun c => c <> newline) (la l).
Proof.
  intros (pre & post & seps & Hpre & Hpost & HF & Hl & ->). rewrite !la_app. repeat (apply Forall_app; split).
  - eapply Forall_impl; [|exact Hpre]. cbn beta. tauto.
  - revert seps Hl. induction HF as [|w ws Hw HF IH]; intros [|k seps] Hl; try discriminate; [constructor|].
    injection Hl as Hl. assert (Hnw : Forall (fun c => c <> newline) (la w)).
    { apply word_chars in Hw. eapply Forall_impl; [|exact Hw]. cbn beta. intros c Hc ->. discriminate. }
    destruct ws as [|w' ws]; destruct seps as [|k' seps]; try discriminate; [exact Hnw|].
    change (spaced (combine (w :: w' :: ws) (k :: k' :: seps))) with (w ++ spaces (S k) ++ spaced (combine (w' :: ws) (k' :: seps)))%string.
    rewrite !la_app, la_spaces. repeat (apply Forall_app; split); auto.
    apply Forall_forall. intros c Hc. apply repeat_spec in Hc. subst. discriminate.
  - eapply Forall_impl; [|exact Hpost]. cbn beta. tauto.
Qed.

Lemma readlines_line l s : Forall (fun c => c <> newline) l -> readlines (l ++ newline :: s) = (l ++ [newline]) :: readlines s.
Proof.
  induction 1 as [|c l Hc _ IH]; [reflexivity|]. cbn [app readlines]. rewrite IH.
  destruct (Ascii.eqb_spec c (Ascii.ascii_of_nat 10)); [contradiction|]. reflexivity.
Qed.
Lemma readlines_last l : l <> [] -> Forall (fun c => c <> newline) l -> readlines l = [l].
Proof.
  intros Hne H. induction H as [|c l Hc HF IH]; [congruence|]. cbn [readlines].
  destruct (Ascii.eqb_spec c (Ascii.ascii_of_nat 10)); [contradiction|]. destruct l; [reflexivity|]. rewrite IH by discriminate. reflexivity.
Qed.

Lemma text_words ls wss : Forall2 shows ls wss -> map words (readlines (la (unlines ls))) = wss.
Proof.
  induction 1 as [|l ws ls wss Hl _ IH]; [reflexivity|]. cbn [unlines]. rewrite la_app. cbn [list_ascii_of_string].
  rewrite readlines_line by (eapply shows_no_newline; eauto). cbn [map]. rewrite IH. f_equal.
  apply words_shows; [auto | repeat constructor].
Qed.
Lemma text_words_last ls wss l ws : Forall2 shows ls wss -> shows l ws -> l <> EmptyString ->
  map words (readlines (la (unlines ls ++ l)%string)) = wss ++ [ws].
Proof.
  intros H Hl Hne. induction H as [|l' ws' ls wss Hl' _ IH].
  - cbn [unlines String.append app]. rewrite readlines_last; [|destruct l; [congruence|discriminate] | eapply shows_no_newline; eauto].
    cbn [map]. f_equal. rewrite <- (app_nil_r (la l)). apply words_shows; auto.
  - cbn [unlines]. rewrite la_app in *. rewrite la_app. cbn [list_ascii_of_string]. rewrite <- app_assoc. cbn [app].
    rewrite readlines_line by (eapply shows_no_newline; eauto). cbn [map app]. rewrite IH. f_equal.
    apply words_shows; [auto | repeat constructor].
Qed.

Lemma words_tab w v : is_word w -> is_word v -> map words (readlines (la (unlines [(w ++ String tab v)%string]))) = [[(w ++ String tab v)%string]].
Proof.
  intros Hw Hv. pose proof (word_chars _ Hw) as Cw. pose proof (word_chars _ Hv) as Cv. cbn [unlines]. rewrite !la_app. cbn [list_ascii_of_string].
  assert (Hno : forall d, is_space d = true -> d <> tab -> Forall (fun c => c <> d) (la w ++ tab :: la v)).
  { intros d Hd Hdt. apply Forall_app. split; [|constructor; [auto|]]; (eapply Forall_impl; [|eassumption]); cbn beta; congruence. }
  rewrite readlines_line by (apply Hno; [reflexivity | discriminate]). cbn [readlines map]. f_equal.
  unfold words. destruct w as [|c w]; [destruct Hw; congruence|].
  destruct (exists_last (l := la v)) as (s & d & E); [destruct v; [destruct Hv; congruence | discriminate]|].
  assert (Hd : is_space d = false) by (rewrite E in Cv; apply Forall_app in Cv; destruct Cv as [_ Cv]; inversion Cv; auto).
  assert (Hc : is_space c = false) by (inversion Cw; auto).
  change ((la (String c w) ++ tab :: la v) ++ [newline]) with ([] ++ (c :: (la w ++ tab :: la v)) ++ [newline]).
  rewrite (strip_core [] [newline] c (la w ++ tab :: la v) d (c :: la w ++ tab :: s)); auto.
  - change (c :: la w ++ tab :: la v) with (la (String c w) ++ tab :: la v).
    change (Ascii.ascii_of_nat 32) with space. rewrite split_one by (apply Hno; [reflexivity | discriminate]).
    cbn [filter nonempty list_ascii_of_string app map]. f_equal.
    change (c :: la w ++ tab :: la v) with (la (String c w) ++ la (String tab v)). rewrite <- la_app. apply string_of_list_ascii_of_string.
  - rewrite E. cbn [app]. rewrite <- app_assoc. reflexivity.
Qed.
End Text.
