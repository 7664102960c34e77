(* The default Jacobians are derivatives. *)
From Coq Require Import List Arith Bool Lia Reals Lra.
From Verif Require Import Num NumR Py Arr MLayout MAssign MNoise MFactor MGraph MAuto SpecLayout SpecTree SpecAssign SpecGraph SpecDeriv SpecAuto PBase PTree PVec PAuto PDeriv.
Import ListNotations.
Local Open Scope R_scope.

Lemma uniform_delta (Q : nat -> R -> Prop) n :
  (forall k, (k < n)%nat -> exists d, 0 < d /\ forall h, Rabs h < d -> Q k h) ->
  exists d, 0 < d /\ forall k h, (k < n)%nat -> Rabs h < d -> Q k h.
Proof.
  induction n as [|n IH]; intros H.
  - exists 1. split; [lra|]. intros; lia.
  - destruct IH as (d1 & P1 & H1). { intros k Hk. apply H. lia. }
    destruct (H n) as (d2 & P2 & H2); [lia|]. exists (Rmin d1 d2). split; [apply Rmin_pos; auto|].
    intros k h Hk Hh. destruct (Nat.eq_dec k n) as [->|Hn].
    + apply H2. eapply Rlt_le_trans; [exact Hh | apply Rmin_r].
    + apply H1; [lia|]. eapply Rlt_le_trans; [exact Hh | apply Rmin_l].
Qed.
Lemma vsum_abs {A} (f : A -> R) l : Rabs (vsum (map f l)) <= vsum (map (fun x => Rabs (f x)) l).
Proof.
  induction l as [|a l IH]; simpl; [rewrite vsum_nil, Rabs_R0; lra|]. rewrite !vsum_cons.
  eapply Rle_trans; [apply Rabs_triang|]. lra.
Qed.

Section Chain.
Variables (n rd : nat) (J : nat -> nat -> R) (G P : R -> list R) (p' : list R).
Hypothesis HP : forall t, length (P t) = n.
Hypothesis Hp : vderiv P p'.
Hypothesis HG : forall t, length (G t) = rd.
Let dP t k := nth k (P t) 0 - nth k (P 0) 0.
Hypothesis HF : forall eps, 0 < eps -> exists delta, 0 < delta /\ forall t, (forall k, Rabs (dP t k) < delta) ->
  forall r, (r < rd)%nat -> Rabs (nth r (G t) 0 - nth r (G 0) 0 - vsum (map (fun k => J r k * dP t k) (seq 0 n)))
     <= eps * vsum (map (fun k => Rabs (dP t k)) (seq 0 n)).

Lemma small_steps e : 0 < e -> exists d, 0 < d /\ forall k h, (k < n)%nat -> Rabs h < d -> Rabs (dP h k - h * nth k p' 0) <= e * Rabs h.
Proof.
  intros He. apply (uniform_delta (fun k h => Rabs (dP h k - h * nth k p' 0) <= e * Rabs h)). intros k Hk.
  destruct Hp as [_ Hd]. specialize (Hd k). destruct (Hd e He) as [[d Hdp] Hd']. simpl in Hd'. exists d. split; auto.
  intros h Hh. destruct (Req_dec h 0) as [->|Hnz].
  - unfold dP. replace (nth k (P 0) 0 - nth k (P 0) 0 - 0 * nth k p' 0) with 0 by ring. rewrite Rabs_R0. lra.
  - specialize (Hd' h Hnz Hh). rewrite Rplus_0_l in Hd'. fold (dP h k) in Hd'.
    replace (dP h k - h * nth k p' 0) with ((dP h k / h - nth k p' 0) * h) by (field; auto).
    rewrite Rabs_mult. apply Rmult_le_compat_r; [apply Rabs_pos|]. lra.
Qed.

Let B := vsum (map (fun k => Rabs (nth k p' 0) + 1) (seq 0 n)).
Lemma B_pos : 0 <= B.
Proof. apply vsum_nonneg. intros y Hy. apply in_map_iff in Hy. destruct Hy as (k & <- & _). pose proof (Rabs_pos (nth k p' 0)). lra. Qed.

Lemma chain_rule : vderiv G (map (fun r => vsum (map (fun k => J r k * nth k p' 0) (seq 0 n))) (seq 0 rd)).
Proof.
  pose proof B_pos as HB.
  split. { intros t. rewrite map_length, seq_length. auto. }
  intros r. destruct (Nat.lt_ge_cases r rd) as [Hr|Hr].
  2:{ rewrite nth_overflow by (rewrite map_length, seq_length; auto).
      intros eps He. exists (mkposreal 1 Rlt_0_1). intros h Hh _. rewrite !nth_overflow by (rewrite HG; auto).
      unfold Rdiv. rewrite !Rminus_0_r, Rmult_0_l, Rabs_R0. auto. }
  rewrite (nth_map' _ _ r 0 0%nat) by (rewrite seq_length; auto). rewrite seq_nth by auto. simpl plus.
  set (l := vsum _). intros eps He.
  set (S := vsum (map (fun k => Rabs (J r k)) (seq 0 n))).
  assert (HS : 0 <= S). { apply vsum_nonneg. intros y Hy. apply in_map_iff in Hy. destruct Hy as (k & <- & _). apply Rabs_pos. }
  set (e2 := eps / 4 / (B + 1)). assert (He2 : 0 < e2) by (unfold e2; apply Rdiv_lt_0_compat; lra).
  set (e1 := Rmin 1 (eps / 4 / (S + 1))). assert (He1 : 0 < e1). { unfold e1. apply Rmin_pos; [lra|]. apply Rdiv_lt_0_compat; lra. }
  destruct (HF e2 He2) as (d2 & Hd2 & HF2). destruct (small_steps e1 He1) as (d1 & Hd1 & HF1).
  set (d := Rmin d1 (d2 / (B + 1))). assert (Hd : 0 < d). { unfold d. apply Rmin_pos; auto. apply Rdiv_lt_0_compat; lra. }
  exists (mkposreal d Hd). simpl. intros h Hnz Hh. rewrite Rplus_0_l.
  assert (Hh1 : Rabs h < d1) by (eapply Rlt_le_trans; [exact Hh | apply Rmin_l]).
  assert (Hh2 : Rabs h < d2 / (B + 1)) by (eapply Rlt_le_trans; [exact Hh | apply Rmin_r]).
  assert (Hah : 0 < Rabs h) by (apply Rabs_pos_lt; auto).
  assert (Hstep : forall k, (k < n)%nat -> Rabs (dP h k) <= (Rabs (nth k p' 0) + 1) * Rabs h).
  { intros k Hk. specialize (HF1 k h Hk Hh1).
    replace (dP h k) with ((dP h k - h * nth k p' 0) + h * nth k p' 0) by ring.
    eapply Rle_trans; [apply Rabs_triang|]. rewrite (Rabs_mult h).
    assert (e1 <= 1) by (unfold e1; apply Rmin_l). nra. }
  assert (Hsum : vsum (map (fun k => Rabs (dP h k)) (seq 0 n)) <= B * Rabs h).
  { unfold B. rewrite Rmult_comm, <- vsum_map_scale. apply vsum_le. intros k Hk. apply in_seq in Hk. rewrite Rmult_comm. apply Hstep. lia. }
  assert (Hclose : forall k, Rabs (dP h k) < d2).
  { intros k. destruct (Nat.lt_ge_cases k n) as [Hk|Hk].
    - assert (Hin : Rabs (dP h k) <= vsum (map (fun k => Rabs (dP h k)) (seq 0 n))).
      { assert (Hmem : In k (seq 0 n)) by (apply in_seq; lia). clear - Hmem.
        induction (seq 0 n) as [|j l IH]; [destruct Hmem|]. simpl. rewrite vsum_cons.
        assert (H0 : 0 <= vsum (map (fun k => Rabs (dP h k)) l)). { apply vsum_nonneg. intros y Hy. apply in_map_iff in Hy. destruct Hy as (i & <- & _). apply Rabs_pos. }
        destruct Hmem as [->|Hm]; [lra|]. specialize (IH Hm). pose proof (Rabs_pos (dP h j)). lra. }
      assert (Hb : (B + 1) * Rabs h < d2).
      { apply Rmult_lt_reg_r with (/ (B + 1)); [apply Rinv_0_lt_compat; lra|]. unfold Rdiv in Hh2.
        replace ((B + 1) * Rabs h * / (B + 1)) with (Rabs h) by (field; lra). auto. }
      nra.
    - unfold dP. rewrite !nth_overflow by (rewrite HP; auto). rewrite Rminus_0_r, Rabs_R0. auto. }
  specialize (HF2 h Hclose r Hr).
  set (lin := vsum (map (fun k => J r k * dP h k) (seq 0 n))) in *.
  assert (Hlin : Rabs (lin - h * l) <= e1 * Rabs h * S).
  { unfold lin, l. rewrite <- vsum_map_scale.
    replace (vsum (map (fun k => J r k * dP h k) (seq 0 n)) - vsum (map (fun k => h * (J r k * nth k p' 0)) (seq 0 n)))
      with (vsum (map (fun k => J r k * (dP h k - h * nth k p' 0)) (seq 0 n))).
    2:{ assert (Hx : forall k, J r k * dP h k = J r k * (dP h k - h * nth k p' 0) + h * (J r k * nth k p' 0)) by (intros; ring).
        rewrite (vsum_map_ext (fun k => J r k * dP h k) (fun k => J r k * (dP h k - h * nth k p' 0) + h * (J r k * nth k p' 0))) by auto.
        rewrite vsum_map_plus. ring. }
    eapply Rle_trans; [apply vsum_abs|]. unfold S. rewrite <- vsum_map_scale. apply vsum_le. intros k Hk. apply in_seq in Hk.
    rewrite Rabs_mult, Rmult_comm. apply Rmult_le_compat_r; [apply Rabs_pos|]. apply HF1; auto. lia. }
  assert (Htot : Rabs (nth r (G h) 0 - nth r (G 0) 0 - h * l) <= (eps / 2) * Rabs h).
  { replace (nth r (G h) 0 - nth r (G 0) 0 - h * l) with ((nth r (G h) 0 - nth r (G 0) 0 - lin) + (lin - h * l)) by ring.
    eapply Rle_trans; [apply Rabs_triang|].
    assert (H1 : e2 * vsum (map (fun k => Rabs (dP h k)) (seq 0 n)) <= eps / 4 * Rabs h).
    { apply Rle_trans with (e2 * ((B + 1) * Rabs h)); [apply Rmult_le_compat_l; [lra|nra]|].
      unfold e2. right. field. lra. }
    assert (H2 : e1 * Rabs h * S <= eps / 4 * Rabs h).
    { apply Rle_trans with ((eps / 4 / (S + 1)) * (Rabs h * (S + 1))).
      - assert (e1 <= eps / 4 / (S + 1)) by (unfold e1; apply Rmin_r).
        assert (0 <= Rabs h * S) by nra. assert (0 < eps / 4 / (S + 1)) by (apply Rdiv_lt_0_compat; lra). nra.
      - right. field. lra. }
    lra. }
  replace ((nth r (G h) 0 - nth r (G 0) 0) / h - l) with ((nth r (G h) 0 - nth r (G 0) 0 - h * l) * / h) by (field; auto).
  rewrite Rabs_mult, (Rabs_inv h). apply Rle_lt_trans with (eps / 2 * Rabs h * / Rabs h).
  - apply Rmult_le_compat_r; auto. left. apply Rinv_0_lt_compat; auto.
  - replace (eps / 2 * Rabs h * / Rabs h) with (eps / 2) by (field; lra). lra.
Qed.
End Chain.

Lemma partial_concat (Ds : list (pytree R)) r :
  map (partial (flat_map leaves Ds) r) (seq 0 (count (flat_map leaves Ds))) =
  concat (map (fun D => map (partial (leaves D) r) (seq 0 (count (leaves D)))) Ds).
Proof.
  rewrite partial_seq. induction Ds as [|D Ds IH]; auto. cbn [flat_map map concat]. rewrite map_app, concat_app, IH. f_equal.
  rewrite partial_seq. auto.
Qed.
Lemma nth_fold_vadd rd r (ls : list (list R)) : Forall (fun l => length l = rd) ls -> (r < rd)%nat ->
  length (fold_right vadd (vzero rd) ls) = rd /\ nth r (fold_right vadd (vzero rd) ls) 0 = vsum (map (fun l => nth r l 0) ls).
Proof.
  intros H Hr. induction H as [|l ls Hl H [I1 I2]]; simpl.
  - rewrite vzero_length. split; auto. apply (@nth_vzero R NumR).
  - rewrite vadd_length by congruence. split; auto. rewrite nth_vadd by congruence. rewrite I2, vsum_cons. auto.
Qed.

Section Factor.
Variable E : env R.
Variable AD : autodiff R.
Let C := e_cls E.
Variable fd : fdata R.
Variable vs : list var.
Variable val : var -> pytree R.
Variable valt : R -> var -> pytree R.
Variable d : var -> list R.
Let rd := noise_dim (fd_noise fd).
Hypothesis Hty : fd_types fd = map v_ty vs.
Hypothesis Hok : auto_ok E AD fd (map val vs).
Hypothesis HF : residual_derivative (Forall2 (fun t x => value_ok (C t) x) (fd_types fd)) (e_res E fd) rd (map val vs) (ad_residual AD fd (map val vs)).
Hypothesis HR : forall v, In v vs -> retract_derivative (C (v_ty v)) (val v) (ad_retract AD (v_ty v) (val v)).
Hypothesis Hd : forall v, In v vs -> length (d v) = local_dim (C (v_ty v)).
Hypothesis Ht : forall t v, In v vs -> retract (C (v_ty v)) (val v) (vscale t (d v)) = Ok (valt t v) /\ value_ok (C (v_ty v)) (valt t v).

Lemma vscale_0 (l : list R) : vscale 0 l = vzero (length l).
Proof. induction l as [|a l IH]; auto. rewrite vscale_cons, Rmult_0_l, IH. auto. Qed.
Lemma valt_0 v : In v vs -> valt 0 v = val v.
Proof. intros Hv. destruct (Ht 0 v Hv) as [H _]. rewrite vscale_0, Hd in H by auto. destruct (HR v Hv) as [H0 _]. congruence. Qed.

Let kd v := map (fun k => vsum (map (fun c => along (local_dim (C (v_ty v))) (ad_retract AD (v_ty v) (val v)) k c * nth c (d v) 0)
  (seq 0 (local_dim (C (v_ty v)))))) (seq 0 (length (ravel (val v)))).

Lemma slot_vals v : In v vs -> value_ok (C (v_ty v)) (val v).
Proof. intros Hv. rewrite <- (valt_0 v Hv). apply Ht; auto. Qed.
Lemma slot_sum J D v r : slot_ok rd (local_dim (C (v_ty v))) (val v) D (ad_retract AD (v_ty v) (val v)) J -> In v vs -> (r < rd)%nat ->
  vdot (map (partial (leaves D) r) (seq 0 (scalars (val v)))) (kd v) = vdot (nth r J []) (d v).
Proof.
  intros (HJ & Hrow & Hent) Hv Hr. set (ld := local_dim (C (v_ty v))) in *. set (K := ad_retract AD (v_ty v) (val v)) in *.
  assert (Hsc : scalars (val v) = length (ravel (val v))) by (apply (scalars_ravel E (v_ty v)); apply slot_vals; auto).
  set (n := scalars (val v)) in *.
  rewrite (vdot_seq _ (kd v) n) by (unfold kd; rewrite map_length, seq_length; auto).
  rewrite (vsum_map_ext _ (fun k => vsum (map (fun c => partial (leaves D) r k * along ld K k c * nth c (d v) 0) (seq 0 ld)))).
  2:{ intros k Hk. apply in_seq in Hk. rewrite (nth_map' _ _ k 0 0%nat) by (rewrite seq_length; lia). rewrite seq_nth by lia.
      unfold kd. rewrite (nth_map' _ _ k 0 0%nat) by (rewrite seq_length; lia). rewrite seq_nth by lia. simpl plus.
      rewrite <- vsum_map_scale. apply vsum_map_ext. intros c _. fold ld K. ring. }
  rewrite vsum_swap. assert (Hlr : length (nth r J []) = ld).
  { apply (proj1 (Forall_forall _ _) Hrow). apply nth_In. lia. }
  rewrite (vdot_seq (nth r J []) (d v) ld) by (auto; rewrite Hd; auto).
  apply vsum_map_ext. intros c Hc. apply in_seq in Hc. change (nth c (nth r J []) 0) with (nth c (nth r J []) (@n0 R NumR)).
  rewrite Hent by (auto; lia). unfold composed. fold n.
  rewrite (vsum_map_ext (fun a => partial (leaves D) r a * along ld K a c * nth c (d v) 0)
     (fun k => nth c (d v) 0 * (partial (leaves D) r k * along ld K k c))) by (intros; ring).
  rewrite vsum_map_scale. rewrite Rmult_comm. auto.
Qed.

Lemma slots_sum r : (r < rd)%nat -> forall vl Dl Jl, (forall v, In v vl -> In v vs) -> Forall2 (residual_arrays rd) (map val vl) Dl ->
  length Jl = length vl ->
  (forall i v D J, nth_error vl i = Some v -> nth_error Dl i = Some D -> nth_error Jl i = Some J ->
     slot_ok rd (local_dim (C (v_ty v))) (val v) D (ad_retract AD (v_ty v) (val v)) J) ->
  vdot (concat (map (fun D => map (partial (leaves D) r) (seq 0 (count (leaves D)))) Dl)) (concat (map kd vl)) =
  vsum (map (fun l => nth r l 0) (zipw (fun v W => mvec W (d v)) vl Jl)).
Proof.
  intros Hr. induction vl as [|v vl IH]; intros Dl Jl Hin HD HJ Hall.
  - inversion HD; subst. reflexivity.
  - inversion HD as [|? D ? Dl' HD1 HD2]; subst. destruct Jl as [|J Jl]; [discriminate|]. cbn [map concat zipw].
    assert (HvIn : In v vs) by (apply Hin; left; auto).
    assert (Hs := Hall 0%nat v D J eq_refl eq_refl eq_refl).
    rewrite vdot_app, vsum_cons.
    2:{ unfold kd. rewrite !map_length, !seq_length. rewrite (residual_count rd (val v)) by auto. apply (scalars_ravel E (v_ty v)), slot_vals. auto. }
    rewrite (IH Dl' Jl); auto.
    + f_equal. rewrite (residual_count rd (val v)) by auto. rewrite (slot_sum J D v r Hs HvIn Hr).
      unfold mvec. rewrite (nth_map' _ _ r 0 []) by (destruct Hs as [-> _]; auto). auto.
    + intros w Hw. apply Hin. right; auto.
    + intros i w D' J' H1 H2 H3. apply (Hall (S i) w D' J'); auto.
Qed.

Lemma factor_derivative Js : default_jacobians E AD fd (map val vs) = Ok Js ->
  vderiv (fun t => e_res E fd (map (valt t) vs)) (fold_right vadd (vzero rd) (zipw (fun v W => mvec W (d v)) vs Js)).
Proof.
  intros EJ. destruct (default_value E AD fd (map val vs) Hok) as (Js' & EJ' & HlJ & Hslot). rewrite EJ in EJ'. injection EJ' as <-.
  set (Ds := ad_residual AD fd (map val vs)) in *.
  assert (Hr0 : (0 < rd)%nat) by apply Hok.
  assert (HDs : Forall2 (residual_arrays rd) (map val vs) Ds) by apply Hok.
  assert (Hlegal : forall t, Forall2 (fun t x => value_ok (C t) x) (fd_types fd) (map (valt t) vs)).
  { intros t. rewrite Hty. clear - Ht. induction vs as [|v l IH]; simpl; constructor.
    - apply Ht. left; auto.
    - apply IH. intros; apply Ht; right; auto. }
  assert (H0 : map (valt 0) vs = map val vs) by (apply map_ext_in; intros; apply valt_0; auto).
  assert (Hflat : forall t, length (flat (map (valt t) vs)) = length (flat (map val vs))).
  { intros t. unfold flat. rewrite !map_map. rewrite !(flat_map_concat_map _ _) || idtac.
    assert (Hv : forall v, In v vs -> length (ravel (valt t v)) = length (ravel (val v))).
    { intros v Hv. pose proof (slot_vals v Hv) as [A1 A2]. destruct (Ht t v Hv) as [_ [B1 B2]].
      rewrite !ravel_length by auto. rewrite (same_shape_size _ _ A2), (same_shape_size _ _ B2). auto. }
    clear - Hv. induction vs as [|v l IH]; simpl; auto. rewrite !app_length, Hv by (left; auto). f_equal. apply IH. intros; apply Hv; right; auto. }
  pose proof (chain_rule (length (flat (map val vs))) rd (partial (flat_map leaves Ds))
     (fun t => e_res E fd (map (valt t) vs)) (fun t => flat (map (valt t) vs)) (concat (map kd vs))) as HC.
  destruct HF as [HF1 HF2].
  assert (HC1 : vderiv (fun t => flat (map (valt t) vs)) (concat (map kd vs))).
  { assert (Hx := concat_deriv (fun v t => ravel (valt t v)) kd vs). cbv beta in Hx.
    assert (Hy : vderiv (fun t => concat (map (fun a => ravel (valt t a)) vs)) (concat (map kd vs))).
    { apply Hx. intros v Hv. apply (proj2 (HR v Hv) (d v) (fun t => valt t v)); auto. }
    destruct Hy as [Y1 Y2]. split.
    - intros t. rewrite <- (Y1 t). unfold flat. rewrite map_map. auto.
    - intros k. eapply derivable_pt_lim_ext; [|apply (Y2 k)]. intros t. unfold flat. rewrite map_map. auto. }
  specialize (HC Hflat HC1). cbv beta zeta in HC. rewrite H0 in HC.
  assert (HC2 : vderiv (fun t => e_res E fd (map (valt t) vs))
     (map (fun r => vsum (map (fun k => partial (flat_map leaves Ds) r k * nth k (concat (map kd vs)) 0) (seq 0 (length (flat (map val vs)))))) (seq 0 rd))).
  { apply HC.
    - intros t. apply HF1, Hlegal.
    - intros eps He. destruct (HF2 eps He) as (delta & Hdp & Hdl). exists delta. split; [exact Hdp|].
      intros t Hcl r Hr. apply (Hdl _ (Hlegal t) Hcl r Hr). }
  assert (Hlen : Forall (fun l => length l = rd) (zipw (fun v W => mvec W (d v)) vs Js)).
  { assert (HJl : forall J, In J Js -> length J = rd).
    { intros J HJ. apply In_nth_error in HJ. destruct HJ as [i Hi].
      assert (Hi' : (i < length vs)%nat). { rewrite Hty, map_length in HlJ. rewrite <- HlJ. apply nth_error_Some. congruence. }
      destruct (nth_error vs i) as [v|] eqn:Ev; [|apply nth_error_None in Ev; lia].
      destruct (nth_error Ds i) as [D|] eqn:ED; [|apply nth_error_None in ED; rewrite <- (Forall2_len _ _ _ HDs), map_length in ED; lia].
      apply (Hslot i (v_ty v) (val v) D J); auto.
      - rewrite Hty. apply map_nth_error; auto.
      - apply map_nth_error; auto. }
    clear - HJl. revert HJl. generalize Js. induction vs as [|v l IH]; intros [|J Js'] H; simpl; constructor.
    - rewrite mvec_length. apply H. left; auto.
    - apply IH. intros; apply H; right; auto. }
  replace (fold_right vadd (vzero rd) (zipw (fun v W => mvec W (d v)) vs Js)) with
    (map (fun r => vsum (map (fun k => partial (flat_map leaves Ds) r k * nth k (concat (map kd vs)) 0) (seq 0 (length (flat (map val vs)))))) (seq 0 rd)); auto.
  apply (nth_ext' _ _ 0). { rewrite map_length, seq_length. symmetry. apply (nth_fold_vadd rd 0); auto. }
  rewrite map_length, seq_length. intros r Hr. rewrite (nth_map' _ _ r 0 0%nat) by (rewrite seq_length; auto). rewrite seq_nth by auto. simpl plus.
  rewrite (proj2 (nth_fold_vadd rd r _ Hlen Hr)).
  assert (Hcnt : forall vl Dl, Forall2 (residual_arrays rd) (map val vl) Dl -> incl vl vs -> count (flat_map leaves Dl) = length (flat (map val vl))).
  { induction vl as [|v vl IH]; intros Dl H Hi; inversion H; subst; auto. cbn [flat_map]. unfold count. rewrite map_app, list_sum_app.
    fold (count (leaves y)) (count (flat_map leaves l')). rewrite (IH l') by (auto; eapply incl_cons_inv; eauto).
    unfold flat. cbn [map concat]. rewrite app_length. f_equal. rewrite (residual_count rd (val v)) by auto.
    apply (scalars_ravel E (v_ty v)). apply slot_vals. apply Hi. left; auto. }
  assert (Hkl : length (concat (map kd vs)) = length (flat (map val vs))).
  { unfold flat. rewrite map_map. clear. induction vs as [|v l IH]; simpl; auto. rewrite !app_length, IH. unfold kd. rewrite map_length, seq_length. auto. }
  transitivity (vdot (map (partial (flat_map leaves Ds) r) (seq 0 (length (flat (map val vs))))) (concat (map kd vs))).
  { rewrite (vdot_seq _ _ (length (flat (map val vs)))) by (rewrite ?map_length, ?seq_length; auto).
    apply vsum_map_ext. intros k Hk. apply in_seq in Hk. rewrite (nth_map' _ _ k 0 0%nat) by (rewrite seq_length; lia). rewrite seq_nth by lia. auto. }
  rewrite <- (Hcnt vs Ds HDs (incl_refl _)), partial_concat.
  apply slots_sum; auto.
  - rewrite HlJ, Hty, map_length. auto.
  - intros i v D J Hv HD HJ. apply (Hslot i (v_ty v) (val v) D J); auto; [rewrite Hty|]; apply map_nth_error; auto.
Qed.
End Factor.
