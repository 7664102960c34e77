(* Proofs about sums of squares in binary32. *)
From Coq Require Import List Arith Bool ZArith Lia Reals Lra Permutation Floats.SpecFloat.
From Flocq Require Import Core.Core IEEE754.BinarySingleNaN Relative Plus_error.
From Verif Require Import Num NumB32 SpecSum PB32.
Import ListNotations.
Local Open Scope R_scope.
#[local] Instance vexp' : Valid_exp (SpecFloat.fexp 24 128) := fexp_correct 24 128 _.

(* ---- one rounding ---- *)
Lemma uro_pos : 0 < uro. Proof. apply bpow_gt_0. Qed.
Lemma tiny_pos : 0 < tiny. Proof. apply bpow_gt_0. Qed.
Lemma half_bpow e : / 2 * bpow radix2 (e + 1) = bpow radix2 e.
Proof. rewrite bpow_plus_1. simpl. field. Qed.
Lemma round_error z : exists e n, Rabs e <= uro /\ Rabs n <= tiny /\ rnd32 z = z * (1 + e) + n.
Proof.
  destruct (error_N_FLT radix2 (-149) 24 eq_refl (fun x => negb (Z.even x)) z) as (e & n & He & Hn & _ & H).
  exists e, n. split; [|split; [|exact H]].
  - rewrite half_bpow in He. exact He.
  - unfold tiny. rewrite <- half_bpow. exact Hn.
Qed.
Lemma plus_round_error (x y : b32) : exists e, Rabs e <= uro /\ rnd32 (B2R x + B2R y) = (B2R x + B2R y) * (1 + e).
Proof.
  destruct (FLT_plus_error_N_ex radix2 (-149) 24 (fun x => negb (Z.even x)) (B2R x) (B2R y)) as (e & He & H).
  - apply generic_format_B2R.
  - apply generic_format_B2R.
  - exists e. split; [|exact H]. apply Rle_trans with (1 := He). unfold u_ro.
    rewrite half_bpow. change (bpow radix2 (- (24))) with uro.
    pose proof uro_pos. apply Rmult_le_reg_r with (1 + uro); [lra|]. unfold Rdiv. rewrite Rmult_assoc, Rinv_l by lra. nra.
Qed.
Lemma round_nonneg z : 0 <= z -> 0 <= rnd32 z.
Proof. intros H. rewrite <- (round_0 radix2 (SpecFloat.fexp 24 128) ZnearestE). apply round_le; auto with typeclass_instances. Qed.

(* z >= 0 rounds to 0 exactly up to half the smallest positive number *)
Lemma small_round z : 0 < z -> z < bpow radix2 (-149) -> rnd32 z = IZR (ZnearestE (z * bpow radix2 149)) * bpow radix2 (-149).
Proof.
  intros H0 Hb. unfold round, F2R, scaled_mantissa. cbn [Fnum Fexp].
  assert (Hc : cexp radix2 (SpecFloat.fexp 24 128) z = (-149)%Z).
  { unfold cexp. assert (Hm : (mag radix2 z <= -149)%Z).
    { apply mag_le_bpow; [lra|]. rewrite Rabs_pos_eq; lra. }
    unfold SpecFloat.fexp, SpecFloat.emin. lia. }
  rewrite Hc. reflexivity.
Qed.
Lemma round_tiny z : 0 <= z -> (rnd32 z = 0 <-> z <= tiny).
Proof.
  intros Hz. assert (Ht : tiny = / 2 * bpow radix2 (-149)) by (unfold tiny; rewrite <- half_bpow; reflexivity).
  assert (Hp : bpow radix2 (-149) * bpow radix2 149 = 1) by (rewrite <- bpow_plus; reflexivity).
  pose proof (bpow_gt_0 radix2 (-149)) as P1. pose proof (bpow_gt_0 radix2 149) as P2.
  split; intros H.
  - destruct (Rle_or_lt z tiny) as [|Hlt]; auto. exfalso.
    destruct (Rle_or_lt (bpow radix2 (-149)) z) as [Hb|Hb].
    + assert (bpow radix2 (-149) <= rnd32 z); [|lra].
      apply round_ge_generic; auto with typeclass_instances. apply generic_format_FLT_bpow; [reflexivity | vm_compute; discriminate].
    + rewrite small_round in H by (auto; lra). rewrite (Znearest_imp _ _ 1) in H; [lra|].
      assert (/ 2 < z * bpow radix2 149 < 1) by (split; apply Rmult_lt_reg_r with (bpow radix2 (-149)); auto; rewrite Rmult_assoc, (Rmult_comm (bpow radix2 149)), Hp; lra).
      rewrite Rabs_left; lra.
  - destruct Hz as [Hz|<-]; [|apply round_0; auto with typeclass_instances].
    rewrite small_round by (auto; lra).
    assert (Hm : 0 < z * bpow radix2 149 <= / 2).
    { split; [apply Rmult_lt_0_compat; auto|]. apply Rmult_le_reg_r with (bpow radix2 (-149)); auto. rewrite Rmult_assoc, (Rmult_comm (bpow radix2 149)), Hp. lra. }
    replace (ZnearestE (z * bpow radix2 149)) with 0%Z; [ring|]. symmetry. destruct (Req_dec (z * bpow radix2 149) (/ 2)) as [->|Hne].
    + unfold Znearest. assert (Hfl : Zfloor (/ 2) = 0%Z) by (apply Zfloor_imp; cbn; lra). rewrite Hfl. rewrite Rcompare_Eq by (cbn; lra). reflexivity.
    + apply Znearest_imp. rewrite Rabs_pos_eq by lra. lra.
Qed.

(* ---- one operation ---- *)
(* a number, not negative, not -0 *)
Definition pos32 (x : b32) : Prop := is_nan x = false /\ Bsign x = false.
Lemma pos_of (x : b32) : pos32 x -> 0 <= B2R x.
Proof. intros (_ & H). apply sign_pos. auto. Qed.

Lemma sq_pos (x : b32) : is_nan x = false -> pos32 (Bmult mode_NE x x).
Proof.
  intros Hx. pose proof (Bmult_correct 24 128 _ _ mode_NE x x) as Hc. destruct (Rlt_bool _ _).
  - destruct Hc as (_ & Hf & Hs). assert (Hn : is_nan (Bmult mode_NE x x) = false) by (destruct x; try discriminate; auto; destruct (Bmult _ _ _); auto).
    split; auto. rewrite Hs by auto. apply xorb_nilpotent.
  - rewrite xorb_nilpotent in Hc. apply sf_inf in Hc. rewrite Hc. split; reflexivity.
Qed.
Lemma sq_finite (x : b32) : is_finite (Bmult mode_NE x x) = true -> is_finite x = true /\ B2R (Bmult mode_NE x x) = rnd32 (B2R x * B2R x).
Proof.
  intros Hx. pose proof (Bmult_correct 24 128 _ _ mode_NE x x) as Hc. destruct (Rlt_bool _ _).
  - destruct Hc as (Hr & Hf & _). split; [|exact Hr]. rewrite Hf in Hx. destruct (is_finite x); auto.
  - unfold binary_overflow in Hc. simpl in Hc. apply sf_inf in Hc. rewrite Hc in Hx. discriminate.
Qed.
Lemma sq_bounded (x : b32) : is_finite x = true -> rnd32 (B2R x * B2R x) < bpow radix2 128 -> is_finite (Bmult mode_NE x x) = true.
Proof.
  intros Hx Hb. pose proof (Bmult_correct 24 128 _ _ mode_NE x x) as Hc. simpl round_mode in Hc. rewrite Rlt_bool_true in Hc.
  - destruct Hc as (_ & Hf & _). rewrite Hf, Hx. auto.
  - rewrite Rabs_pos_eq; auto. apply round_nonneg. apply Rle_0_sqr.
Qed.

Lemma add_pos (x y : b32) : pos32 x -> pos32 y -> pos32 (Bplus mode_NE x y).
Proof.
  intros (Nx & Sx) (Ny & Sy). destruct (is_finite x) eqn:Fx; [destruct (is_finite y) eqn:Fy|].
  - pose proof (Bplus_correct 24 128 _ _ mode_NE x y Fx Fy) as Hc. pose proof (sign_pos x Sx). pose proof (sign_pos y Sy). destruct (Rlt_bool _ _).
    + destruct Hc as (_ & Hf & Hs). split; [destruct (Bplus _ _ _); auto; discriminate|]. rewrite Hs, Sx, Sy. destruct (Rcompare_spec (B2R x + B2R y) 0); auto; lra.
    + destruct Hc as (Ho & _). rewrite Sx in Ho. apply sf_inf in Ho. rewrite Ho. split; reflexivity.
  - destruct x as [|s| |], y as [|s'| |]; try discriminate; cbn in Sx, Sy; subst; split; reflexivity.
  - destruct x as [|s| |], y as [|s'| |]; try discriminate; cbn in Sx, Sy; subst; split; reflexivity.
Qed.
Lemma add_finite (x y : b32) : is_finite (Bplus mode_NE x y) = true ->
  is_finite x = true /\ is_finite y = true /\ B2R (Bplus mode_NE x y) = rnd32 (B2R x + B2R y).
Proof.
  intros H. assert (Hx : is_finite x = true) by (destruct x as [|s| |], y as [|s'| |]; try discriminate; auto; cbn in H; destruct (Bool.eqb _ _); discriminate).
  assert (Hy : is_finite y = true) by (destruct x as [|s| |], y as [|s'| |]; try discriminate; auto).
  split; auto. split; auto. pose proof (Bplus_correct 24 128 _ _ mode_NE x y Hx Hy) as Hc. destruct (Rlt_bool _ _).
  - apply Hc.
  - destruct Hc as (Ho & _). unfold binary_overflow in Ho. simpl in Ho. apply sf_inf in Ho. rewrite Ho in H. discriminate.
Qed.
Lemma add_bounded (x y : b32) : is_finite x = true -> is_finite y = true -> 0 <= B2R x + B2R y -> rnd32 (B2R x + B2R y) < bpow radix2 128 ->
  is_finite (Bplus mode_NE x y) = true.
Proof.
  intros Hx Hy H0 Hb. pose proof (Bplus_correct 24 128 _ _ mode_NE x y Hx Hy) as Hc. simpl round_mode in Hc. rewrite Rlt_bool_true in Hc.
  - apply Hc.
  - rewrite Rabs_pos_eq; auto. apply round_nonneg. auto.
Qed.

Lemma fma_pos (x z : b32) : is_nan x = false -> pos32 z -> pos32 (Bfma mode_NE x x z).
Proof.
  intros Nx (Nz & Sz). destruct (is_finite x) eqn:Fx; [destruct (is_finite z) eqn:Fz|].
  - pose proof (Bfma_correct 24 128 _ _ mode_NE x x z Fx Fx Fz) as Hc. cbv zeta in Hc. pose proof (sign_pos z Sz). pose proof (Rle_0_sqr (B2R x)) as Hq. unfold Rsqr in Hq.
    destruct (Rlt_bool (Rabs _) _).
    + destruct Hc as (_ & Hf & Hs). split; [destruct (Bfma _ _ _ _); auto; discriminate|]. rewrite Hs. destruct (Rcompare_spec (B2R x * B2R x + B2R z) 0); auto; [lra|].
      unfold Bfma_szero. rewrite xorb_nilpotent, Sz. reflexivity.
    + rewrite Rlt_bool_false in Hc by lra. apply sf_inf in Hc. rewrite Hc. split; reflexivity.
  - destruct x as [|s| |], z as [|s'| |]; try discriminate; cbn in Sz; subst; split; cbn; try rewrite xorb_nilpotent; reflexivity.
  - destruct x as [|s| |], z as [|s'| |]; try discriminate; cbn in Sz; subst; split; cbn; try rewrite xorb_nilpotent; reflexivity.
Qed.
Lemma fma_finite (x z : b32) : is_finite (Bfma mode_NE x x z) = true ->
  is_finite x = true /\ is_finite z = true /\ B2R (Bfma mode_NE x x z) = rnd32 (B2R x * B2R x + B2R z).
Proof.
  intros H. assert (Hx : is_finite x = true) by (destruct x as [|s| |], z as [|s'| |]; try discriminate; auto; cbn in H; destruct (Bool.eqb _ _); discriminate).
  assert (Hz : is_finite z = true) by (destruct x as [|s| |], z as [|s'| |]; try discriminate; auto).
  split; auto. split; auto. pose proof (Bfma_correct 24 128 _ _ mode_NE x x z Hx Hx Hz) as Hc. cbv zeta in Hc. destruct (Rlt_bool (Rabs _) _).
  - apply Hc.
  - unfold binary_overflow in Hc. simpl in Hc. apply sf_inf in Hc. rewrite Hc in H. discriminate.
Qed.
Lemma fma_bounded (x z : b32) : is_finite x = true -> is_finite z = true -> 0 <= B2R x * B2R x + B2R z -> rnd32 (B2R x * B2R x + B2R z) < bpow radix2 128 ->
  is_finite (Bfma mode_NE x x z) = true.
Proof.
  intros Hx Hz H0 Hb. pose proof (Bfma_correct 24 128 _ _ mode_NE x x z Hx Hx Hz) as Hc. cbv zeta in Hc. simpl round_mode in Hc. rewrite Rlt_bool_true in Hc.
  - apply Hc.
  - rewrite Rabs_pos_eq; auto. apply round_nonneg. auto.
Qed.

(* ---- trees ---- *)
Lemma exact_cons x r : exact_cost (x :: r) = B2R x * B2R x + exact_cost r.
Proof. reflexivity. Qed.
Lemma exact_nonneg r : 0 <= exact_cost r.
Proof. induction r as [|x r IH]; [apply Rle_refl|]. rewrite exact_cons. pose proof (Rle_0_sqr (B2R x)) as H. unfold Rsqr in H. lra. Qed.
Lemma exact_app a b : exact_cost (a ++ b) = exact_cost a + exact_cost b.
Proof. induction a as [|x a IH]; [cbn [app]; unfold exact_cost at 2; cbn [fold_right]; ring|]. cbn [app]. rewrite !exact_cons, IH. ring. Qed.
Lemma exact_perm a b : Permutation a b -> exact_cost a = exact_cost b.
Proof. induction 1; rewrite ?exact_cons; lra. Qed.
Lemma pow_ge_1 h : 1 <= (1 + uro) ^ h.
Proof. apply pow_R1_Rle. pose proof uro_pos. lra. Qed.
Lemma pow_mono h h' : (h <= h')%nat -> (1 + uro) ^ h <= (1 + uro) ^ h'.
Proof. intros H. apply Rle_pow; auto. pose proof uro_pos. lra. Qed.

Lemma tree_number t : Forall (fun x => is_nan x = false) (leaves t) -> pos32 (teval t).
Proof.
  induction t as [|x|l IHl r IHr|x t IH]; cbn; intros H.
  - split; reflexivity.
  - apply sq_pos. inversion H; auto.
  - apply Forall_app in H. apply add_pos; [apply IHl | apply IHr]; apply H.
  - inversion H; subst. apply fma_pos; auto.
Qed.
Lemma tree_finite t : is_finite (teval t) = true -> Forall (fun x => is_finite x = true) (leaves t).
Proof.
  induction t as [|x|l IHl r IHr|x t IH]; cbn; intros H; auto.
  - apply sq_finite in H. constructor; [apply H | constructor].
  - apply add_finite in H. destruct H as (Hl & Hr & _). apply Forall_app. auto.
  - apply fma_finite in H. destruct H as (Hx & Ht & _). constructor; auto.
Qed.
Lemma finite_number r : Forall (fun x : b32 => is_finite x = true) r -> Forall (fun x : b32 => is_nan x = false) r.
Proof. intros H. eapply Forall_impl; [|exact H]. intros x Hx. destruct x; auto; discriminate. Qed.
Lemma tree_nonneg t : is_finite (teval t) = true -> 0 <= B2R (teval t).
Proof. intros H. apply pos_of, tree_number, finite_number, tree_finite. auto. Qed.

Lemma bound_nonneg h m e : 0 <= e -> 0 <= error_bound h m e.
Proof.
  intros He. unfold error_bound. pose proof (pow_ge_1 h). pose proof tiny_pos. pose proof (pos_INR m).
  assert (0 <= ((1 + uro) ^ h - 1) * e) by (apply Rmult_le_pos; lra). assert (0 <= (1 + uro) ^ h * (INR m * tiny)) by (apply Rmult_le_pos; [lra | apply Rmult_le_pos; lra]). lra.
Qed.
Lemma bound_mono h h' m e : (h <= h')%nat -> 0 <= e -> error_bound h m e <= error_bound h' m e.
Proof.
  intros Hh He. unfold error_bound. pose proof (pow_mono h h' Hh). pose proof tiny_pos. pose proof (pos_INR m).
  apply Rplus_le_compat; apply Rmult_le_compat_r; try lra. apply Rmult_le_pos; lra.
Qed.
(* one more rounding of a nonnegative quantity z approximating e *)
Lemma bound_step h m e z k : 0 <= e -> Rabs (z - e) <= error_bound h m e -> Rabs k <= uro -> forall n, Rabs n <= tiny ->
  Rabs (z * (1 + k) - e) <= error_bound (S h) m e /\ Rabs (z * (1 + k) + n - e) <= error_bound (S h) (S m) e.
Proof.
  intros He Hz Hk n Hn. pose proof uro_pos as Hu. pose proof (pow_ge_1 h) as Hp. pose proof tiny_pos as Ht. pose proof (pos_INR m) as Hm.
  assert (H1 : Rabs (z * (1 + k) - e) <= error_bound (S h) m e).
  { replace (z * (1 + k) - e) with ((z - e) * (1 + k) + e * k) by ring. eapply Rle_trans; [apply Rabs_triang|]. rewrite !Rabs_mult, (Rabs_pos_eq e) by auto.
    assert (Rabs (1 + k) <= 1 + uro) by (eapply Rle_trans; [apply Rabs_triang|]; rewrite Rabs_R1; lra).
    assert (Rabs (z - e) * Rabs (1 + k) <= error_bound h m e * (1 + uro)) by (apply Rmult_le_compat; auto using Rabs_pos).
    assert (e * Rabs k <= e * uro) by (apply Rmult_le_compat_l; auto).
    replace (error_bound (S h) m e) with (error_bound h m e * (1 + uro) + e * uro) by (unfold error_bound; cbn [pow]; ring). lra. }
  split; auto. replace (z * (1 + k) + n - e) with (z * (1 + k) - e + n) by ring. eapply Rle_trans; [apply Rabs_triang|].
  assert (error_bound (S h) m e + tiny <= error_bound (S h) (S m) e); [|lra].
  unfold error_bound. rewrite S_INR. pose proof (pow_ge_1 (S h)). assert (1 * tiny <= (1 + uro) ^ S h * tiny) by (apply Rmult_le_compat_r; lra).
  replace ((1 + uro) ^ S h * ((INR m + 1) * tiny)) with ((1 + uro) ^ S h * (INR m * tiny) + (1 + uro) ^ S h * tiny) by ring. lra.
Qed.
Lemma bound_add h m m' e e' : error_bound h m e + error_bound h m' e' = error_bound h (m + m') (e + e').
Proof. unfold error_bound. rewrite plus_INR. ring. Qed.

Lemma tree_error t : is_finite (teval t) = true ->
  Rabs (B2R (teval t) - exact_cost (leaves t)) <= error_bound (height t) (length (leaves t)) (exact_cost (leaves t)).
Proof.
  induction t as [|x|l IHl r IHr|x t IH]; intros H.
  - cbn. rewrite Rminus_0_r, Rabs_R0. apply bound_nonneg. lra.
  - cbn [teval leaves height length exact_cost fold_right] in *. apply sq_finite in H. destruct H as (_ & ->).
    destruct (round_error (B2R x * B2R x)) as (k & n & Hk & Hn & ->). rewrite Rplus_0_r.
    apply (bound_step 0 0); auto; [apply Rle_0_sqr|]. replace (B2R x * B2R x - B2R x * B2R x) with 0 by ring. rewrite Rabs_R0. apply bound_nonneg, Rle_0_sqr.
  - cbn [teval leaves height] in *. apply add_finite in H. destruct H as (Hl & Hr & ->).
    destruct (plus_round_error (teval l) (teval r)) as (k & Hk & ->). rewrite exact_app, app_length.
    pose proof (exact_nonneg (leaves l)) as Nl. pose proof (exact_nonneg (leaves r)) as Nr.
    apply (bound_step (Nat.max (height l) (height r)) _ _ _ k) with (n := 0); auto; [lra| |rewrite Rabs_R0; pose proof tiny_pos; lra].
    rewrite <- bound_add. replace (B2R (teval l) + B2R (teval r) - (exact_cost (leaves l) + exact_cost (leaves r))) with
      ((B2R (teval l) - exact_cost (leaves l)) + (B2R (teval r) - exact_cost (leaves r))) by ring.
    eapply Rle_trans; [apply Rabs_triang|]. apply Rplus_le_compat.
    + eapply Rle_trans; [apply IHl; auto|]. apply bound_mono; auto. lia.
    + eapply Rle_trans; [apply IHr; auto|]. apply bound_mono; auto. lia.
  - cbn [teval leaves height length exact_cost fold_right] in *. fold (exact_cost (leaves t)). apply fma_finite in H. destruct H as (_ & Ht & ->).
    destruct (round_error (B2R x * B2R x + B2R (teval t))) as (k & n & Hk & Hn & ->).
    pose proof (exact_nonneg (leaves t)) as Nt. pose proof (Rle_0_sqr (B2R x)) as Hq. unfold Rsqr in Hq.
    apply (bound_step (height t) (length (leaves t))); auto; [lra|].
    replace (B2R x * B2R x + B2R (teval t) - (B2R x * B2R x + exact_cost (leaves t))) with (B2R (teval t) - exact_cost (leaves t)) by ring.
    eapply Rle_trans; [apply IH; auto|]. unfold error_bound. apply Rplus_le_compat_r. apply Rmult_le_compat_l; [|lra]. pose proof (pow_ge_1 (height t)). lra.
Qed.

(* no overflow as long as the bound stays below the largest number *)
Lemma max_round z : z <= max_float -> rnd32 z < bpow radix2 128.
Proof.
  intros H. apply Rle_lt_trans with max_float.
  - apply round_le_generic; auto with typeclass_instances.
    replace max_float with (F2R (Float radix2 (2 ^ 24 - 1) 104)).
    + apply generic_format_FLT. exists (Float radix2 (2 ^ 24 - 1) 104); auto; cbn; [lia | vm_compute; discriminate].
    + unfold F2R, max_float. cbn [Fnum Fexp]. rewrite minus_IZR. replace (bpow radix2 128) with (bpow radix2 24 * bpow radix2 104) by (rewrite <- bpow_plus; reflexivity).
      change (IZR (2 ^ 24)) with (bpow radix2 24). ring.
  - unfold max_float. pose proof (bpow_gt_0 radix2 104). lra.
Qed.
Lemma tree_bounded t : Forall (fun x => is_finite x = true) (leaves t) ->
  exact_cost (leaves t) + error_bound (height t) (length (leaves t)) (exact_cost (leaves t)) <= max_float -> is_finite (teval t) = true.
Proof.
  induction t as [|x|l IHl r IHr|x t IH]; intros Hf Hb.
  - reflexivity.
  - cbn [teval leaves height length exact_cost fold_right] in *. inversion Hf; subst. apply sq_bounded; auto. apply max_round.
    pose proof (bound_nonneg 1 1 (B2R x * B2R x + 0)). pose proof (Rle_0_sqr (B2R x)) as Hq. unfold Rsqr in Hq. lra.
  - cbn [teval leaves height] in *. apply Forall_app in Hf. destruct Hf as (Fl & Fr). rewrite exact_app, app_length, <- bound_add in Hb.
    pose proof (exact_nonneg (leaves l)) as Nl. pose proof (exact_nonneg (leaves r)) as Nr.
    pose proof (bound_mono (height l) (S (Nat.max (height l) (height r))) (length (leaves l)) _ ltac:(lia) Nl) as Ml.
    pose proof (bound_mono (height r) (S (Nat.max (height l) (height r))) (length (leaves r)) _ ltac:(lia) Nr) as Mr.
    pose proof (bound_nonneg (height l) (length (leaves l)) _ Nl) as Pl. pose proof (bound_nonneg (height r) (length (leaves r)) _ Nr) as Pr.
    assert (El : is_finite (teval l) = true) by (apply IHl; auto; lra). assert (Er : is_finite (teval r) = true) by (apply IHr; auto; lra).
    pose proof (tree_error l El) as Xl. pose proof (tree_error r Er) as Xr. apply Rabs_le_inv in Xl. apply Rabs_le_inv in Xr.
    pose proof (tree_nonneg l El). pose proof (tree_nonneg r Er). apply add_bounded; auto; [lra|]. apply max_round. lra.
  - cbn [teval leaves height length exact_cost fold_right] in *. fold (exact_cost (leaves t)) in Hb. inversion Hf; subst.
    pose proof (exact_nonneg (leaves t)) as Nt. pose proof (Rle_0_sqr (B2R x)) as Hq. unfold Rsqr in Hq.
    assert (M : error_bound (height t) (length (leaves t)) (exact_cost (leaves t)) <= error_bound (S (height t)) (S (length (leaves t))) (B2R x * B2R x + exact_cost (leaves t))).
    { eapply Rle_trans; [apply (bound_mono _ (S (height t))); auto|]. change (S (length (leaves t))) with (1 + length (leaves t))%nat. rewrite <- bound_add.
      pose proof (bound_nonneg (S (height t)) 1 _ Hq). lra. }
    pose proof (bound_nonneg (height t) (length (leaves t)) _ Nt) as Pt.
    assert (Et : is_finite (teval t) = true) by (apply IH; auto; lra). pose proof (tree_error t Et) as Xt. apply Rabs_le_inv in Xt.
    pose proof (tree_nonneg t Et). apply fma_bounded; auto; [lra|]. apply max_round. lra.
Qed.

(* zero exactly when every square vanishes *)
Lemma tree_zero t : Forall (fun x => is_finite x = true) (leaves t) ->
  (teval t = B754_zero false <-> Forall (fun x => B2R x * B2R x <= tiny) (leaves t)).
Proof.
  intros Hf. assert (Hz : forall x : b32, pos32 x -> is_finite x = true -> (x = B754_zero false <-> B2R x = 0)).
  { intros x (_ & Hs) Hx. split; [intros ->; reflexivity|]. intros H0. destruct x as [s|s| |s m e B]; try discriminate; [cbn in Hs; subst; auto|].
    simpl in H0. apply eq_0_F2R in H0. destruct s; discriminate. }
  assert (Hfz : forall x : b32, x = B754_zero false -> is_finite x = true) by (intros ? ->; reflexivity).
  induction t as [|x|l IHl r IHr|x t IH].
  - split; intros; [constructor | reflexivity].
  - cbn [teval leaves] in *. inversion Hf as [|? ? Fx _]; subst. pose proof (Rle_0_sqr (B2R x)) as Hq. unfold Rsqr in Hq.
    assert (Hp : pos32 (Bmult mode_NE x x)) by (apply sq_pos; destruct x; auto; discriminate). split; intros H.
    + constructor; [|constructor]. pose proof (Hfz _ H) as Ff. apply sq_finite in Ff as G. destruct G as (_ & Er). apply (round_tiny _ Hq). rewrite <- Er, H. reflexivity.
    + inversion H as [|? ? Hx _]; subst. apply (round_tiny _ Hq) in Hx.
      assert (Ff : is_finite (Bmult mode_NE x x) = true) by (apply sq_bounded; auto; rewrite Hx; apply bpow_gt_0).
      apply Hz; auto. apply sq_finite in Ff. destruct Ff as (_ & ->). auto.
  - cbn [teval leaves] in *. apply Forall_app in Hf as (Fl & Fr). specialize (IHl Fl). specialize (IHr Fr). rewrite Forall_app, <- IHl, <- IHr.
    pose proof (tree_number l (finite_number _ Fl)) as Pl. pose proof (tree_number r (finite_number _ Fr)) as Pr. split.
    + intros H. pose proof (Hfz _ H) as Ff. apply add_finite in Ff. destruct Ff as (El & Er & Ev). rewrite H in Ev. symmetry in Ev. change (rnd32 (B2R (teval l) + B2R (teval r)) = 0) in Ev.
      pose proof (pos_of _ Pl). pose proof (pos_of _ Pr). destruct (plus_round_error (teval l) (teval r)) as (k & Hk & Ek). rewrite Ek in Ev.
      assert (uro < 1) by (unfold uro; apply (bpow_lt radix2 (-24) 0); reflexivity). apply Rabs_le_inv in Hk.
      apply Rmult_integral in Ev. destruct Ev as [Ev|Ev]; [|lra]. split; apply Hz; auto; lra.
    + intros (El & Er). rewrite El, Er. reflexivity.
  - cbn [teval leaves] in *. inversion Hf as [|? ? Fx Ft]; subst. specialize (IH Ft). pose proof (tree_number t (finite_number _ Ft)) as Pt.
    pose proof (Rle_0_sqr (B2R x)) as Hq. unfold Rsqr in Hq. pose proof (pos_of _ Pt) as Nt. split.
    + intros H. pose proof (Hfz _ H) as Ff. apply fma_finite in Ff. destruct Ff as (_ & Et & Ev). rewrite H in Ev. symmetry in Ev. change (rnd32 (B2R x * B2R x + B2R (teval t)) = 0) in Ev.
      apply round_tiny in Ev; [|lra]. constructor; [lra|]. apply IH. apply Hz; auto.
      assert (rnd32 (B2R (teval t)) = 0) as E0 by (apply round_tiny; lra). rewrite rnd_id in E0. auto.
    + intros H. inversion H as [|? ? Hx Ht]; subst. apply IH in Ht. assert (Hn : is_nan x = false) by (destruct x; auto; discriminate).
      pose proof (fma_pos x (teval t) Hn Pt) as Pf.
      assert (E0 : rnd32 (B2R x * B2R x + B2R (teval t)) = 0) by (rewrite Ht; cbn [B2R]; rewrite Rplus_0_r; apply round_tiny; auto).
      assert (Ff : is_finite (Bfma mode_NE x x (teval t)) = true) by (apply fma_bounded; auto; [lra | rewrite E0; apply bpow_gt_0]).
      apply Hz; auto. apply fma_finite in Ff. destruct Ff as (_ & _ & ->). auto.
Qed.
