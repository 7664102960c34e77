(* Bundling lemmas and concrete instances for C73. *)
From Coq Require Import List Arith Bool ZArith Lia Reals Lra Permutation Floats.SpecFloat.
From Flocq Require Import Core.Core IEEE754.BinarySingleNaN.
From Verif Require Import Num NumF32 NumB32 Py Arr MLayout MAssign MNoise MSparse MFactor MGraph MLinear MSolver SpecSum PB32 PSumTree Ex ExG ExS PExB32.
Import ListNotations.
Local Open Scope R_scope.
#[local] Existing Instance NumB32.

(* the order the model uses *)
Definition model_tree (r : list b32) : stree := fold_right (fun x t => TAdd (TSq x) t) TZero r.
Lemma model_tree_ok r : leaves (model_tree r) = r /\ teval (model_tree r) = sumsq r /\ (height (model_tree r) <= S (length r))%nat.
Proof.
  induction r as [|x r (H1 & H2 & H3)]; [repeat split; cbn; lia|]. cbn [model_tree fold_right]. fold (model_tree r).
  cbn [leaves teval height length app]. rewrite H1, H2. repeat split; auto. lia.
Qed.

Lemma square_small (x : R) : x * x <= tiny <-> Rabs x <= bpow radix2 (-75).
Proof.
  assert (Ht : tiny = bpow radix2 (-75) * bpow radix2 (-75)) by (unfold tiny; rewrite <- bpow_plus; reflexivity).
  pose proof (bpow_gt_0 radix2 (-75)) as Hp. pose proof (Rabs_pos x). assert (Hx : x * x = Rabs x * Rabs x) by (rewrite <- Rabs_mult, Rabs_pos_eq; auto; apply Rle_0_sqr).
  rewrite Ht, Hx. split; intros H1; nra.
Qed.

Lemma any_order r t : Permutation (leaves t) r ->
  (Forall (fun x => is_nan x = false) r -> is_nan (teval t) = false /\ nltb (teval t) n0 = false) /\
  (is_finite (teval t) = true -> Rabs (B2R (teval t) - exact_cost r) <= error_bound (height t) (length r) (exact_cost r)) /\
  (Forall (fun x => is_finite x = true) r -> exact_cost r + error_bound (height t) (length r) (exact_cost r) <= max_float -> is_finite (teval t) = true) /\
  (Forall (fun x => is_finite x = true) r -> (teval t = n0 <-> Forall (fun x => Rabs (B2R x) <= bpow radix2 (-75)) r)).
Proof.
  intros Hp. rewrite <- (exact_perm _ _ Hp), <- (Permutation_length Hp).
  assert (HF : forall P : b32 -> Prop, Forall P r -> Forall P (leaves t)) by (intros P; apply Permutation_Forall; apply Permutation_sym; auto).
  split; [|split; [|split]].
  - intros H. destruct (tree_number t (HF _ H)) as (Hn & Hs). split; auto.
    change (nltb (teval t) n0) with (Bltb (teval t) (B754_zero false)). destruct (teval t) as [|s| |s m e B]; cbn in Hs; subst; auto.
  - apply tree_error.
  - intros H. apply tree_bounded. auto.
  - intros H. change (n0 (Num := NumB32)) with (B754_zero (prec := 24) (emax := 128) false). rewrite (tree_zero t (HF _ H)).
    assert (Hiff : forall l, Forall (fun x : b32 => B2R x * B2R x <= tiny) l <-> Forall (fun x : b32 => Rabs (B2R x) <= bpow radix2 (-75)) l).
    { intros l. rewrite !Forall_forall. split; intros Hl x Hx; apply square_small; auto. }
    rewrite Hiff. split; apply Permutation_Forall; auto. apply Permutation_sym; auto.
Qed.

Lemma cost_in_any_order (E : env b32) g a c r : compute_cost E g a = Ok (c, r) ->
  (exists t, leaves t = r /\ teval t = c /\ (height t <= S (length r))%nat) /\
  forall t, Permutation (leaves t) r ->
    (Forall (fun x => is_nan x = false) r -> is_nan (teval t) = false /\ nltb (teval t) n0 = false) /\
    (is_finite (teval t) = true -> Rabs (B2R (teval t) - exact_cost r) <= error_bound (height t) (length r) (exact_cost r)) /\
    (Forall (fun x => is_finite x = true) r -> exact_cost r + error_bound (height t) (length r) (exact_cost r) <= max_float -> is_finite (teval t) = true) /\
    (Forall (fun x => is_finite x = true) r -> (teval t = n0 <-> Forall (fun x => Rabs (B2R x) <= bpow radix2 (-75)) r)).
Proof.
  intros H. assert (Hc : c = sumsq r).
  { unfold compute_cost in H. destruct (compute_whitened_residual_vector E g a) as [r'|]; [|discriminate]. cbn [bind] in H. injection H as <- <-. reflexivity. }
  split; [|intros t; apply any_order]. exists (model_tree r). destruct (model_tree_ok r) as (H1 & H2 & H3). rewrite Hc. auto.
Qed.

Lemma comparison_safe t t' : is_finite (teval t) = true -> is_finite (teval t') = true ->
  exact_cost (leaves t) + error_bound (height t) (length (leaves t)) (exact_cost (leaves t)) <
    exact_cost (leaves t') - error_bound (height t') (length (leaves t')) (exact_cost (leaves t')) ->
  nltb (teval t) (teval t') = true.
Proof.
  intros F F' H. pose proof (tree_error t F) as X. pose proof (tree_error t' F') as X'. apply Rabs_le_inv in X. apply Rabs_le_inv in X'.
  apply lt_finite; auto. lra.
Qed.

Lemma pow_bound h : INR h * uro <= 1 / 2 -> (1 + uro) ^ h - 1 <= 2 * INR h * uro.
Proof.
  intros H. pose proof uro_pos as Hu. assert (Hi : forall k, (k <= h)%nat -> (1 + uro) ^ k * (1 - INR k * uro) <= 1).
  { induction k as [|k IH]; intros Hk; [cbn; lra|]. specialize (IH ltac:(lia)). rewrite S_INR. cbn [pow].
    assert (INR (S k) <= INR h) by (apply le_INR; auto). rewrite S_INR in *. pose proof (pos_INR k) as Pk. pose proof (pow_ge_1 k) as Pw.
    replace ((1 + uro) * (1 + uro) ^ k * (1 - (INR k + 1) * uro)) with ((1 + uro) ^ k * (1 - INR k * uro) - (1 + uro) ^ k * ((INR k + 1) * (uro * uro))) by ring.
    assert (0 <= (1 + uro) ^ k * ((INR k + 1) * (uro * uro))) by (repeat apply Rmult_le_pos; lra). lra. }
  specialize (Hi h (le_n h)). pose proof (pos_INR h) as Ph. set (p := (1 + uro) ^ h) in *. set (z := INR h * uro) in *.
  replace (2 * INR h * uro) with (2 * z) by (unfold z; ring). assert (0 <= z) by (apply Rmult_le_pos; lra). nra.
Qed.
Lemma relative_bound h m e : 0 <= e -> INR h * uro <= 1 / 2 -> error_bound h m e <= 2 * INR h * uro * e + 2 * INR m * tiny.
Proof.
  intros He H. pose proof (pow_bound h H) as Hp. unfold error_bound. pose proof tiny_pos. pose proof (pos_INR m). pose proof uro_pos.
  assert ((1 + uro) ^ h <= 2) by lra.
  assert (((1 + uro) ^ h - 1) * e <= 2 * INR h * uro * e) by (apply Rmult_le_compat_r; auto).
  assert ((1 + uro) ^ h * (INR m * tiny) <= 2 * (INR m * tiny)) by (apply Rmult_le_compat_r; [apply Rmult_le_pos; lra | lra]). lra.
Qed.

(* ---- residuals 1, 2^-12, 2^-12: the order matters ---- *)
Definition b_12 : b32 := nlit 1 4096.
Definition left_first : stree := TAdd (TAdd (TSq n1) (TSq b_12)) (TSq b_12).
Definition right_first : stree := TFma n1 (TAdd (TSq b_12) (TSq b_12)).
Lemma order_differs : Permutation (leaves left_first) (leaves right_first) /\ nltb (teval left_first) (teval right_first) = true /\
  is_finite (teval left_first) = true /\ is_finite (teval right_first) = true.
Proof.
  split; [apply Permutation_refl|]. split; [vm_cast_no_check (eq_refl true)|]. split; vm_cast_no_check (eq_refl true).
Qed.

(* ---- a residual of 2^-80 costs nothing ---- *)
Definition b_80 : b32 := nlit 1 (2 ^ 80).
Definition fplain : list (factor b32) := [mkFactor 21 [vx] (DiagGaussian (mkArr [1%nat] [n1])) [leaf1 [n0]]].
Definition zero_but (x : result (b32 * list b32)) : bool :=
  match x with Ok (c, [y]) => nleb c n0 && nleb n0 c && nltb n0 y && is_finite y | _ => false end.
Lemma plain_graph : okb (graph_make exSE fplain) = true.
Proof. vm_cast_no_check (eq_refl true). Qed.
Lemma plain_cost : zero_but (compute_cost exSE (graph_of fplain) (scalars [vx] [b_80])) = true.
Proof. vm_cast_no_check (eq_refl true). Qed.
Lemma zero_cost_nonzero : exists (E : env b32) fs g a c y, graph_make E fs = Ok g /\ compute_cost E g a = Ok (c, [y]) /\
  nleb c n0 = true /\ nleb n0 c = true /\ is_finite y = true /\ nltb n0 y = true.
Proof.
  pose proof plain_cost as H. unfold zero_but in H. destruct (compute_cost exSE (graph_of fplain) (scalars [vx] [b_80])) as [[c [|y [|]]]|] eqn:Ec; try discriminate.
  apply andb_prop in H. destruct H as (H & H4). apply andb_prop in H. destruct H as (H & H3). apply andb_prop in H. destruct H as (H1 & H2).
  exists exSE, fplain, (graph_of fplain), (scalars [vx] [b_80]), c, y. split; [apply graph_of_ok, plain_graph|]. auto.
Qed.

(* ---- 1 + 0 against 4 ---- *)
Definition b_2 : b32 := lambda_factor (lm_default (N := NumB32) 100).
Lemma uro_small : uro <= / 1024.
Proof. unfold uro. apply Rle_trans with (bpow radix2 (-10)); [apply bpow_le; lia | apply Req_le; reflexivity]. Qed.
Lemma tiny_small : tiny <= / 1024.
Proof. unfold tiny. apply Rle_trans with (bpow radix2 (-10)); [apply bpow_le; lia | apply Req_le; reflexivity]. Qed.
Lemma ex_compare : is_finite (teval (TFma n1 TZero)) = true /\ is_finite (teval (TSq b_2)) = true /\
  exact_cost [n1] = 1 /\ exact_cost [b_2] = 4 /\
  exact_cost [n1] + error_bound 1 1 (exact_cost [n1]) < exact_cost [b_2] - error_bound 1 1 (exact_cost [b_2]) /\
  exact_cost [n1] + error_bound 1 1 (exact_cost [n1]) <= max_float /\ INR 1 * uro <= 1 / 2.
Proof.
  assert (E1 : exact_cost [n1] = 1).
  { unfold exact_cost. cbn [fold_right]. rewrite (proj2 PB32S.one_val). ring. }
  assert (E2 : exact_cost [b_2] = 4).
  { unfold exact_cost. cbn [fold_right]. unfold b_2. rewrite PB32S.two_val. ring. }
  split; [vm_cast_no_check (eq_refl true)|]. split; [vm_cast_no_check (eq_refl true)|]. split; auto. split; auto. rewrite E1, E2.
  pose proof uro_small. pose proof tiny_small. pose proof uro_pos. pose proof tiny_pos.
  assert (Hu : INR 1 * uro <= 1 / 2) by (cbn [INR]; lra).
  pose proof (relative_bound 1 1 1 ltac:(lra) Hu) as H3. pose proof (relative_bound 1 1 4 ltac:(lra) Hu) as H4. cbn [INR] in H3, H4.
  split; [lra|]. split; auto. apply Rle_trans with 4; [lra|]. unfold max_float.
  replace (bpow radix2 128) with (bpow radix2 24 * bpow radix2 104) by (rewrite <- bpow_plus; reflexivity).
  assert (4 <= bpow radix2 104) by (change 4 with (bpow radix2 2); apply bpow_le; lia). assert (2 <= bpow radix2 24) by (change 2 with (bpow radix2 1) at 1; apply bpow_le; lia). nra.
Qed.
