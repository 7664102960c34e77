(* The action of the sparse Jacobian on a vector (exact arithmetic). *)
From Coq Require Import List Arith Bool Lia Permutation Reals Lra.
From Verif Require Import Num NumR Py Arr MLayout MAssign MNoise MSparse MFactor MGraph SpecLayout SpecTree SpecAssign SpecGraph SpecSparse.
From Verif Require Import PBase PLayout PTree PAssign PAssign2 PAssign3 PStack PGraph PGraph2 PJac PVec PSparse PGraph3 PGraph4.
Import ListNotations.
Local Open Scope R_scope.

Lemma slice_cons {A} (d : A) l a n : (a < length l)%nat -> slice l a (a + S n) = nth a l d :: slice l (S a) (S a + n).
Proof.
  intros H. unfold slice. replace (a + S n - a)%nat with (S n) by lia. replace (S a + n - S a)%nat with n by lia.
  assert (Hs : skipn a l = nth a l d :: skipn (S a) l); [|rewrite Hs; auto].
  revert a H; induction l as [|x l IH]; intros [|a]; simpl; intros H; try lia; auto. rewrite IH by lia. auto.
Qed.
Lemma slice_nil {A} (l : list A) a : slice l a (a + 0) = [].
Proof. unfold slice. replace (a + 0 - a)%nat with 0%nat by lia. auto. Qed.

Lemma firstn_plus {A} n m (l : list A) : firstn (n + m) l = firstn n l ++ firstn m (skipn n l).
Proof. revert l; induction n as [|n IH]; intros l; simpl; auto. destruct l; simpl; [destruct m; auto|]. f_equal. auto. Qed.
Lemma slice_app {A} (l : list A) a b c : (a <= b)%nat -> (b <= c)%nat -> slice l a b ++ slice l b c = slice l a c.
Proof.
  intros H1 H2. unfold slice. replace (c - a)%nat with ((b - a) + (c - b))%nat by lia.
  rewrite firstn_plus,  skipn_skipn'. do 3 f_equal; lia.
Qed.

Lemma bil_row r p row y x : (p + length row <= length x)%nat ->
  bil (row_triples r p row) y x = nth r y 0 * vdot row (slice x p (p + length row)).
Proof.
  unfold bil, row_triples, enumerate. rewrite map_map. simpl.
  assert (H : forall k, (p + k + length row <= length x)%nat ->
    vsum (map (fun x0 => nth r y 0 * (snd x0 * nth (p + fst x0) x 0)) (combine (seq k (length row)) row)) =
    nth r y 0 * vdot row (slice x (p + k) (p + k + length row))).
  { induction row as [|v row IH]; intros k Hb; simpl length in *.
    - simpl. rewrite vdot_nil_l, vsum_nil. lra.
    - simpl seq. simpl combine. rewrite map_cons, vsum_cons. rewrite IH by lia.
      rewrite (slice_cons 0) by lia. rewrite vdot_cons. simpl fst; simpl snd.
      replace (p + S k)%nat with (S (p + k)) by lia. lra. }
  intros Hb. specialize (H 0%nat). rewrite Nat.add_0_r in H. apply H; auto.
Qed.

Lemma bil_block o p ld W y x : (p + ld <= length x)%nat -> (o + length W <= length y)%nat ->
  Forall (fun row => length row = ld) W ->
  bil (block_triples o p W) y x = vdot (slice y o (o + length W)) (mvec W (slice x p (p + ld))).
Proof.
  intros Hx Hy HW. unfold block_triples, enumerate. rewrite bil_flat_map.
  assert (H : forall k, (o + k + length W <= length y)%nat ->
    vsum (map (fun a => bil (row_triples (o + fst a) p (snd a)) y x) (combine (seq k (length W)) W)) =
    vdot (slice y (o + k) (o + k + length W)) (mvec W (slice x p (p + ld)))).
  { clear Hy. induction HW as [|row W Hr HW IH]; intros k Hk; simpl length in *.
    - simpl. rewrite vdot_nil_r, vsum_nil. lra.
    - simpl seq. simpl combine. rewrite map_cons, vsum_cons, IH by lia. simpl fst; simpl snd.
      rewrite (slice_cons 0) by lia. rewrite mvec_cons, vdot_cons, bil_row, Hr by lia.
      replace (o + S k)%nat with (S (o + k)) by lia. lra. }
  specialize (H 0%nat). rewrite Nat.add_0_r in H. apply H; auto.
Qed.

Section Act.
Variable E : env R.
Let C := e_cls E.
Variable L : layout.
Variable x : list R.

(* sum over the slots of one factor of (matrix of the slot) times (block of x of its variable) *)
Definition apply_slots (rd : nat) (vs : list var) (Ws : list (list (list R))) : list R :=
  fold_right vadd (vzero rd) (zipw (fun v W => mvec W (block C L x v)) vs Ws).

Lemma apply_slots_length rd vs Ws : Forall2 (fun v W => length W = rd) vs Ws -> length (apply_slots rd vs Ws) = rd.
Proof.
  unfold apply_slots. induction 1 as [|v W vs Ws H1 H IH]; simpl; [apply vzero_length|].
  rewrite vadd_length; rewrite mvec_length; congruence.
Qed.

Lemma bil_slots rd o vs Ws y : (o + rd <= length y)%nat -> l_local L = true ->
  (forall v, In v vs -> indexed L v /\ (pos L v + vldim C v <= length x)%nat) ->
  Forall2 (fun v W => length W = rd /\ Forall (fun row => length row = vldim C v) W) vs Ws ->
  bil (flat_map (fun vW => block_triples o (pos L (fst vW)) (snd vW)) (combine vs Ws)) y x =
  vdot (slice y o (o + rd)) (apply_slots rd vs Ws).
Proof.
  intros Hy HL Hv Hf. unfold apply_slots. induction Hf as [|v W vs Ws (H1 & H2) Hf IH].
  - simpl. rewrite vdot_zero_r. unfold bil; simpl. apply vsum_nil.
  - simpl combine. simpl flat_map. rewrite bil_app, IH by (intros; apply Hv; right; auto).
    destruct (Hv v (or_introl eq_refl)) as ((i & Hi) & Hb).
    rewrite (bil_block o (pos L v) (vldim C v)), H1 by (rewrite ?H1; auto). simpl zipw. simpl fold_right.
    rewrite vdot_add_r.
    + f_equal. do 2 f_equal. unfold block, pos. rewrite Hi, HL. auto.
    + rewrite mvec_length, H1. symmetry. apply apply_slots_length.
      clear - Hf. induction Hf; constructor; tauto.
Qed.
End Act.

Section Jac.
Variable E : env R.
Let C := e_cls E.

Lemma vdot_place {A} (dim : A -> nat) (F : A * nat -> list R) y l : forall s,
  (forall a, In a (place dim s l) -> length (F a) = dim (fst a)) -> (s + total dim l <= length y)%nat ->
  vsum (map (fun a => vdot (slice y (snd a) (snd a + dim (fst a))) (F a)) (place dim s l)) =
  vdot (slice y s (s + total dim l)) (concat (map F (place dim s l))).
Proof.
  induction l as [|a l IH]; intros s HF Hs; simpl.
  - rewrite vdot_nil_r. apply vsum_nil.
  - simpl in Hs. simpl map. rewrite vsum_cons, IH; [|intros; apply HF; right; auto | lia].
    simpl fst; simpl snd.
    rewrite <- vdot_app by (rewrite slice_length, (HF (a, s) (or_introl eq_refl)) by lia; simpl; lia).
    f_equal. rewrite (slice_app y s (s + dim a)) by lia. f_equal; lia.
Qed.

Lemma jacobian_action fs g a r val : (forall f, In f fs -> factor_ok f) -> (forall f, In f fs -> jacobian_shape_ok E val f) ->
  is_graph E fs g -> assigns E fs a val -> length r = total residual_dim fs -> total residual_dim fs <> 0%nat ->
  exists A, compute_whitened_residual_jacobian E g a r = Ok A /\ coo_ok A /\
    m_shape A = (total residual_dim fs, l_dim (graph_layout E fs true)) /\
    m_coords A = g_coords g /\
    forall x, length x = l_dim (graph_layout E fs true) ->
      matmul A x = Ok (concat (map (fun fo => apply_slots E (graph_layout E fs true) x (residual_dim (fst fo)) (f_vars (fst fo)) (wjacs E val r fo))
                             (place residual_dim 0 (concat (kgroups fs))))).
Proof.
  intros Hok Hj Hg Ha Hlen Hpos. destruct (jacobian_coo_ok E fs g a r val Hok Hj Hg Ha Hlen Hpos) as (A & EA & HA & Hsh & Hco & HP).
  exists A. repeat split; auto; try apply HA. intros x Hx. rewrite matmul_mapply by (auto; rewrite Hsh; auto). f_equal.
  assert (Hfo : forall fo, In fo (place residual_dim 0 (concat (kgroups fs))) ->
    In (fst fo) fs /\ (snd fo + residual_dim (fst fo) <= total residual_dim fs)%nat /\
    Forall2 (fun v W => length W = residual_dim (fst fo) /\ Forall (fun row => length row = vldim C v) W) (f_vars (fst fo)) (wjacs E val r fo)).
  { intros [f o] Hin. apply placed in Hin. simpl. repeat split; try tauto.
    apply (wjacs_ok E val r (f, o)); [split; [apply Hok | apply Hj]; apply Hin | simpl; rewrite Hlen; apply Hin]. }
  assert (Hal : forall fo, In fo (place residual_dim 0 (concat (kgroups fs))) ->
    length (apply_slots E (graph_layout E fs true) x (residual_dim (fst fo)) (f_vars (fst fo)) (wjacs E val r fo)) = residual_dim (fst fo)).
  { intros fo Hin. apply apply_slots_length. destruct (Hfo fo Hin) as (_ & _ & H). clear - H. induction H; constructor; tauto. }
  assert (Htot : total residual_dim (concat (kgroups fs)) = total residual_dim fs) by apply (total_perm _ _ _ (kgroups_perm fs)).
  apply (vec_ext (total residual_dim fs)).
  - rewrite mapply_length, Hsh. auto.
  - rewrite <- Htot. clear - Hal. revert Hal. generalize (concat (kgroups fs)) 0%nat. induction l as [|f l IH]; intros s H; simpl; auto.
    rewrite app_length, IH by (intros; apply H; right; auto). specialize (H (f, s) (or_introl eq_refl)). simpl in H. rewrite H. auto.
  - intros y Hy. rewrite mapply_dot by (rewrite ?Hsh; auto). rewrite (bil_perm _ _ _ _ HP), bil_flat_map.
    rewrite <- (slice_full y (0 + total residual_dim fs)) by (simpl; auto). rewrite <- Htot at 1. rewrite <- Htot.
    rewrite <- (vdot_place residual_dim _ y (concat (kgroups fs)) 0) by (auto; rewrite Htot; simpl; lia).
    rewrite (slice_full y) by (simpl; congruence).
    apply vsum_map_ext. intros [f o] Hin. destruct (Hfo _ Hin) as (Hf & Hb & HW). simpl fst in *; simpl snd in *.
    unfold factor_triples. simpl fst; simpl snd. apply (bil_slots E); auto.
    + lia.
    + apply lay_local. apply mentioned_nodup.
    + intros v Hv. split; [eapply graph_indexed; eauto|]. rewrite Hx. apply pos_bound. apply mentioned_in. eauto.
Qed.
End Jac.
