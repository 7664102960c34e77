(* The trust-region solvers in binary32 arithmetic. *)
From Coq Require Import ZArith Bool List Reals Lra Lia Floats.SpecFloat.
From Flocq Require Import Core.Core IEEE754.BinarySingleNaN.
From Verif Require Import Num NumB32 Py Arr MLayout MAssign MNoise MSparse MFactor MGraph MLinear MSolver SpecSolver SpecB32 PSolver PSolver2 PB32 ExS.
Import ListNotations.
#[local] Existing Instance NumB32.

Lemma accepted_decreases_b32 (E : env b32) lin step qmin g s s' : trust_body E lin step qmin -> nltb n0 qmin = true -> step g s = Ok s' ->
  exists A d prop c r q Ad, trust_step E g qmin s s' A d prop c r q /\ matmul A d = Ok Ad /\
    (nleb qmin q = true -> s_assign s' = prop /\ s_cost s' = c /\
       (nltb (sumsq (vadd Ad (s_res s))) (s_cost s) = true -> nltb (s_cost s') (s_cost s) = true)) /\
    (nleb qmin q = false -> s_assign s' = s_assign s /\ s_cost s' = s_cost s).
Proof.
  intros Hb Hq H. destruct (trust_body_step E _ _ _ _ _ _ Hb H) as (A & d & prop & c & r & q & Ht).
  pose proof Ht as [HA Hp Hc Hs Ha Hr _ _]. destruct Hs as (Ad & EA & Hs). exists A, d, prop, c, r, q, Ad. split; [auto|]. split; [auto|]. split; auto.
  intros Hle. destruct (Ha Hle) as (H1 & H2). split; [auto|]. split; [auto|]. intros Hm. rewrite H2.
  apply (quality_binary32 qmin c (s_cost s) (sumsq (vadd Ad (s_res s)))); auto. cbn [ndiv nsub nleb NumB32] in *. rewrite Hs in Hle. exact Hle.
Qed.

Local Open Scope R_scope.

Lemma one_val : is_finite (n1 (Num := NumB32)) = true /\ B2R (n1 (Num := NumB32)) = 1.
Proof.
  assert (E : n1 (Num := NumB32) = Bone) by (apply B2SF_inj; vm_compute; reflexivity). rewrite E. split; [reflexivity|apply Bone_correct].
Qed.

Lemma lm_params_R cfg : lm_params cfg -> is_finite (lambda_min cfg) = true /\ 0 <= B2R (lambda_min cfg) <= B2R (lambda_max cfg) /\ 1 < B2R (lambda_factor cfg).
Proof.
  intros (Fm & Ff & H0 & H1 & H2). cbn [nleb nltb n0 NumB32] in *.
  assert (Fl : is_finite (lambda_min cfg) = true).
  { destruct (lambda_min cfg) as [|[]| |], (lambda_max cfg) as [|[]| |]; auto; try discriminate; destruct s; discriminate. }
  apply le_finite in H0; auto. apply le_finite in H1; auto. destruct one_val as (F1 & E1). apply lt_finite in H2; auto. simpl in H0. rewrite E1 in H2. auto.
Qed.

Lemma lambda_step E cfg lin g s s' : lm_params cfg -> within (lambda_max cfg) (s_extra s) -> lm_step E cfg lin g s = Ok s' ->
  within (lambda_max cfg) (s_extra s') /\
  (B2R (s_extra s) <= B2R (s_extra s') \/ B2R (s_extra s') = rnd32 (B2R (s_extra s) / B2R (lambda_factor cfg))).
Proof.
  intros Hc Hw H. destruct (lm_params_R cfg Hc) as (Fl & Hl & Hf). destruct Hc as (Fm & Ff & _).
  destruct (lm_tr E _ _ _ _ _ H) as (A & ATb & d & prop & c & r & q & Ht & _ & _ & Hex & _).
  rewrite Hex. unfold lm_lambda. destruct (nleb _ q).
  - cbn [ndiv NumB32]. destruct (div_within _ _ _ Hw Ff Hf) as (H1 & H2). auto.
  - cbn [nmax nmin nmul NumB32]. destruct (clip_within _ _ _ _ Fl Fm Hl Hw Ff Hf) as (H1 & _ & H2). auto.
Qed.

Lemma within_leb hi x : is_finite hi = true -> (within hi x <-> nleb n0 x = true /\ nleb x hi = true).
Proof.
  intros Fh. cbn [nleb n0 NumB32]. split.
  - intros (Fx & H0 & H1). rewrite !le_finite by auto. simpl. auto.
  - intros (H0 & H1). assert (Fx : is_finite x = true) by (destruct x as [|[]| |], hi as [|[]| |]; auto; try discriminate; destruct s; discriminate).
    apply le_finite in H0; auto. apply le_finite in H1; auto. simpl in H0. split; auto.
Qed.

Lemma lambda_range_b32 E cfg lin g s0 : lm_params cfg -> nleb n0 (s_extra s0) = true -> nleb (s_extra s0) (lambda_max cfg) = true ->
  forall k s, runs (lm_step E cfg lin g) k s0 s -> nleb n0 (s_extra s) = true /\ nleb (s_extra s) (lambda_max cfg) = true.
Proof.
  intros Hc H0 H1 k s Hr. pose proof Hc as (Fm & _). apply (within_leb _ _ Fm).
  apply (runs_ind_inv (lm_step E cfg lin g) (fun s => within (lambda_max cfg) (s_extra s))) with (k := k) (s := s0); auto.
  - intros t t' Ht H. apply (lambda_step E cfg lin g t t' Hc Ht H).
  - apply within_leb; auto.
Qed.

(* default parameters: 138 iterations cannot make lambda zero *)
Lemma default_params n : lm_params (lm_default n).
Proof. repeat split; vm_compute; reflexivity. Qed.
Lemma two_val : B2R (lambda_factor (lm_default (N := NumB32) 100)) = 2.
Proof.
  assert (E : B2SF (lambda_factor (lm_default (N := NumB32) 100)) = S754_finite false 8388608 (-22)) by (vm_compute; reflexivity).
  destruct (lambda_factor _) as [|s| |s m e B]; try discriminate. injection E as -> -> ->. simpl. unfold F2R. simpl. lra.
Qed.
Definition b11 : b32 := nlit 1 2048.
Lemma b11_val : B2R b11 = bpow radix2 (-11).
Proof.
  assert (E : B2SF b11 = S754_finite false 8388608 (-34)) by (vm_compute; reflexivity).
  destruct b11 as [|s| |s m e B]; try discriminate. injection E as -> -> ->. simpl. unfold F2R. simpl. lra.
Qed.
Lemma initial_above n : bpow radix2 (-11) <= B2R (lambda_initial (lm_default (N := NumB32) n)).
Proof.
  rewrite <- b11_val. apply le_finite; vm_compute; reflexivity.
Qed.

Lemma lambda_positive_b32 E n lin g s0 : s_extra s0 = lambda_initial (lm_default n) ->
  forall k s, runs (lm_step E (lm_default n) lin g) k s0 s -> (k <= 138)%nat -> nltb n0 (s_extra s) = true.
Proof.
  intros H0. set (hi := lambda_max (lm_default (N := NumB32) n)).
  assert (Hi : forall k s, runs (lm_step E (lm_default n) lin g) k s0 s -> (k <= 138)%nat ->
    within hi (s_extra s) /\ bpow radix2 (-11 - Z.of_nat k) <= B2R (s_extra s)).
  { induction k as [|k IH]; intros s Hr Hk.
    - inversion Hr; subst. rewrite H0. split; [|apply initial_above]. apply within_leb; vm_compute; auto.
    - apply runs_snoc in Hr. destruct Hr as (t & Hr & _ & H). destruct (IH t Hr ltac:(lia)) as (Hw & Hb).
      destruct (lambda_step E _ lin g t s (default_params n) Hw H) as (Hw' & Hs). split; [auto|].
      destruct Hs as [Hs|Hs].
      + apply Rle_trans with (2 := Hs). apply Rle_trans with (2 := Hb). apply bpow_le. lia.
      + rewrite Hs. change (lambda_factor (lm_default n)) with (lambda_factor (lm_default (N := NumB32) 100)). rewrite two_val.
        replace (-11 - Z.of_nat (S k))%Z with (-11 - Z.of_nat k - 1)%Z by lia. apply half_above; [auto|lia]. }
  intros k s Hr Hk. destruct (Hi k s Hr Hk) as ((Fs & _) & Hb). cbn [nltb n0 NumB32]. apply lt_finite; auto. simpl.
  pose proof (bpow_gt_0 radix2 (-11 - Z.of_nat k)). lra.
Qed.

Lemma num_of (x : b32) : is_nan x = false -> x <> B754_nan.
Proof. intros H ->. discriminate. Qed.
Lemma two_sign : Bsign (nlit (Num := NumB32) 2 1) = false.
Proof. vm_cast_no_check (eq_refl false). Qed.
Lemma two_num : nlit (Num := NumB32) 2 1 <> B754_nan.
Proof. apply num_of. vm_cast_no_check (eq_refl false). Qed.
Lemma three_sign : Bsign (nlit (Num := NumB32) 3 1) = false.
Proof. vm_cast_no_check (eq_refl false). Qed.
Lemma three_num : nlit (Num := NumB32) 3 1 <> B754_nan.
Proof. apply num_of. vm_cast_no_check (eq_refl false). Qed.

Lemma radius_not_negative_b32 E cfg lin g s0 : nltb (s_extra s0) n0 = false ->
  forall k s, runs (dl_step E cfg lin g) k s0 s -> nltb (s_extra s) n0 = false.
Proof.
  intros H0 k s Hr. cbn [nltb n0 NumB32] in *. apply signed_lt.
  apply (runs_ind_inv (dl_step E cfg lin g) (fun s => signed false (s_extra s))) with (k := k) (s := s0); auto; [|apply signed_lt; auto].
  intros t t' Ht H. destruct (dl_tr E _ _ _ _ _ H) as (A & ATb & gn & Asd & d & prop & c & r & q & _ & _ & _ & _ & _ & Hex & _).
  rewrite Hex. unfold dogleg_radius. destruct (nltb q _); [|destruct (nltb _ q)]; auto.
  - cbn [ndiv NumB32]. apply (div_sign _ _ false false Ht two_sign two_num).
  - cbn [nmax nmul NumB32]. apply max_signed; [exact Ht|]. apply (mult_signed _ _ three_sign three_num). apply sqrt_signed.
Qed.
