(* Binary32 facts: NumB32 computes what NumF32 computes; signs of differences and quotients;
   order facts of multiplication, division, minimum and maximum. *)
From Coq Require Import ZArith Bool Reals Lra Lia Floats.SpecFloat.
From Flocq Require Import Core.Core IEEE754.BinarySingleNaN.
From Verif Require Import Num NumF32 NumB32 SpecB32.

(* ---- NumB32 and NumF32 agree ---- *)
Lemma rne_equiv s m l : round_nearest_even m l = choice_mode mode_NE s m l.
Proof. case l; [reflexivity|intro c]. case c; [|reflexivity..]. now simpl; unfold Round.cond_incr; case Z.even. Qed.
Lemma round_aux_equiv sx mx ex lx : SpecFloat.binary_round_aux 24 128 sx mx ex lx = binary_round_aux 24 128 mode_NE sx mx ex lx.
Proof.
  unfold SpecFloat.binary_round_aux, binary_round_aux. set (mrse' := shr_fexp _ _ _ _ _).
  case mrse'; intros mrs' e'; simpl. now rewrite (rne_equiv sx).
Qed.
Lemma round_equiv s m e : SpecFloat.binary_round 24 128 s m e = binary_round 24 128 mode_NE s m e.
Proof.
  unfold SpecFloat.binary_round, binary_round, shl_align_fexp. set (mez := shl_align _ _ _). case mez as [mz ez].
  apply round_aux_equiv.
Qed.
Lemma normalize_equiv m e z : SpecFloat.binary_normalize 24 128 m e z = B2SF (binary_normalize 24 128 prec24 prec24_emax mode_NE m e z).
Proof. case m as [|p|p]; [now simpl | |]; simpl; rewrite B2SF_SF2B; apply round_equiv. Qed.

Lemma div_equiv (x y : b32) : B2SF (Bdiv mode_NE x y) = SFdiv 24 128 (B2SF x) (B2SF y).
Proof.
  destruct x as [sx|sx| |sx mx ex Bx], y as [sy|sy| |sy my ey By]; try reflexivity; [simpl; now case Bool.eqb ..|].
  simpl. rewrite B2SF_SF2B. set (melz := SFdiv_core_binary _ _ _ _ _ _). case melz as [[mz ez] lz].
  symmetry. apply round_aux_equiv.
Qed.
Lemma of_Z_equiv z : B2SF (b_of_Z z) = f_of_Z z.
Proof. symmetry. apply normalize_equiv. Qed.

Lemma b32_f32 : hom.
Proof.
  constructor; intros; cbn [n0 n1 nadd nsub nmul ndiv nneg nabs nsqrt nmax nmin nltb nleb nlit NumB32 NumF32]; try reflexivity.
  - destruct x as [sx|sx| |sx mx ex Bx], y as [sy|sy| |sy my ey By]; try reflexivity; try (simpl; now case Bool.eqb).
    symmetry. apply normalize_equiv.
  - destruct x as [sx|sx| |sx mx ex Bx], y as [sy|sy| |sy my ey By]; try reflexivity; try (simpl; now case Bool.eqb).
    simpl. unfold Zminus. rewrite <- cond_Zopp_negb. symmetry. apply normalize_equiv.
  - destruct x as [sx|sx| |sx mx ex Bx], y as [sy|sy| |sy my ey By]; try reflexivity.
    simpl. rewrite B2SF_SF2B. symmetry. apply round_aux_equiv.
  - apply div_equiv.
  - destruct x as [sx|sx| |sx mx ex Bx]; reflexivity.
  - destruct x as [sx|sx| |sx mx ex Bx]; reflexivity.
  - destruct x as [sx|[]| |[] mx ex Bx]; try reflexivity.
    simpl. rewrite B2SF_SF2B. set (melz := SFsqrt_core_binary _ _ _ _). case melz as [[mz ez] lz]. symmetry. apply round_aux_equiv.
  - unfold bmax, fmax, Bltb. destruct x as [sx|sx| |sx mx ex Bx], y as [sy|sy| |sy my ey By]; try reflexivity; cbn [B2SF]; now destruct (SFltb _ _).
  - unfold bmin, fmin, Bltb. destruct x as [sx|sx| |sx mx ex Bx], y as [sy|sy| |sy my ey By]; try reflexivity; cbn [B2SF]; now destruct (SFltb _ _).
  - rewrite div_equiv, !of_Z_equiv. reflexivity.
Qed.

(* ---- signs ---- *)
Local Open Scope R_scope.
Notation rnd32 := (round radix2 (SpecFloat.fexp 24 128) ZnearestE).
#[local] Instance vexp : Valid_exp (SpecFloat.fexp 24 128) := fexp_correct 24 128 _.

Lemma not_below (x y : b32) : Bltb x y = false -> x = B754_nan \/ y = B754_nan \/ Bleb y x = true.
Proof.
  intros H. destruct x as [sx|sx| |sx mx ex Bx] eqn:Ex; destruct y as [sy|sy| |sy my ey By] eqn:Ey; auto; do 2 right.
  all: try (revert H; repeat match goal with s : bool |- _ => destruct s end; cbn; congruence).
  rewrite <- Ex, <- Ey in *. rewrite Bltb_correct in H by (subst; auto). rewrite Bleb_correct by (subst; auto).
  destruct (Rlt_bool_spec (B2R x) (B2R y)); [discriminate|]. apply Rle_bool_true. auto.
Qed.

(* zero, NaN, or of the given sign *)
Definition signed (s : bool) (x : b32) : Prop := Bsign x = s \/ x = B754_nan \/ exists z, x = B754_zero z.

Lemma sf_inf (x : b32) s : B2SF x = S754_infinity s -> x = B754_infinity s.
Proof. destruct x; simpl; try discriminate. intros [= ->]. reflexivity. Qed.

Lemma sign_pos (x : b32) : Bsign x = false -> 0 <= B2R x.
Proof. destruct x as [s|s| |s m e B]; simpl; intros H; try lra. subst. now apply F2R_ge_0. Qed.
Lemma sign_neg (x : b32) : Bsign x = true -> B2R x <= 0.
Proof. destruct x as [s|s| |s m e B]; simpl; intros H; try lra. subst. now apply F2R_le_0. Qed.

Lemma sub_below (p k : b32) : Bltb p k = true -> Bsign (Bminus mode_NE p k) = true /\ Bminus mode_NE p k <> B754_nan.
Proof.
  intros H. destruct (is_finite p) eqn:Fp; [destruct (is_finite k) eqn:Fk|].
  - pose proof (Bminus_correct 24 128 _ _ mode_NE p k Fp Fk) as Hc. rewrite Bltb_correct in H by auto.
    destruct (Rlt_bool_spec (B2R p) (B2R k)) as [Hlt|]; [|discriminate].
    destruct (Rlt_bool _ _).
    + destruct Hc as (_ & Hf & Hs). rewrite Rcompare_Lt in Hs by lra. split; [auto|]. intros E. rewrite E in Hf. discriminate.
    + destruct Hc as (Ho & Hs). unfold binary_overflow in Ho. simpl in Ho. apply sf_inf in Ho. rewrite Ho. split; [|discriminate]. simpl.
      destruct (Bsign p) eqn:Sp; auto. apply sign_pos in Sp. assert (Sk : Bsign k = true) by (destruct (Bsign k); auto; discriminate).
      apply sign_neg in Sk. lra.
  - destruct p as [sx|sx| |sx mx ex Bx], k as [sy|[]| |sy my ey By]; try discriminate; try (destruct sx; discriminate); simpl; split; congruence.
  - destruct p as [sx|[]| |sx mx ex Bx], k as [sy|[]| |sy my ey By]; try discriminate; simpl; split; congruence.
Qed.

Lemma sub_above (c k : b32) : Bleb k c = true -> signed false (Bminus mode_NE c k).
Proof.
  intros H. destruct (is_finite c) eqn:Fp; [destruct (is_finite k) eqn:Fk|].
  - pose proof (Bminus_correct 24 128 _ _ mode_NE c k Fp Fk) as Hc. rewrite Bleb_correct in H by auto.
    destruct (Rle_bool_spec (B2R k) (B2R c)) as [Hle|]; [|discriminate].
    destruct (Rlt_bool _ _).
    + destruct Hc as (Hr & Hf & Hs). destruct (Rle_lt_or_eq_dec _ _ Hle) as [Hlt|He].
      * rewrite Rcompare_Gt in Hs by lra. left. auto.
      * do 2 right. replace (B2R c - B2R k) with 0 in Hr by lra. rewrite round_0 in Hr by auto with typeclass_instances.
        destruct (Bminus mode_NE c k) as [s|s| |s m e B]; try discriminate; [eauto|]. exfalso. simpl in Hr.
        apply eq_0_F2R in Hr. destruct s; discriminate.
    + destruct Hc as (Ho & Hs). unfold binary_overflow in Ho. simpl in Ho. apply sf_inf in Ho. rewrite Ho.
      destruct (Bsign c) eqn:Sp; [|left; auto]. assert (Sk : Bsign k = false) by (destruct (Bsign k); auto; discriminate).
      apply sign_neg in Sp. apply sign_pos in Sk. assert (B2R c = 0 /\ B2R k = 0) as [Hc0 Hk0] by lra. exfalso.
      destruct c as [sc|sc| |sc mc ec Bc]; try discriminate Fp; [|simpl in Hc0; apply eq_0_F2R in Hc0; destruct sc; discriminate].
      destruct k as [sk|sk| |sk mk ek Bk]; try discriminate Fk; [|simpl in Hk0; apply eq_0_F2R in Hk0; destruct sk; discriminate].
      simpl in Ho. destruct (Bool.eqb sc (negb sk)); discriminate.
  - destruct c as [sx|sx| |sx mx ex Bx], k as [sy|[]| |sy my ey By]; try discriminate; try (destruct sx; discriminate); unfold signed; simpl; auto.
  - destruct c as [sx|[]| |sx mx ex Bx], k as [sy|[]| |sy my ey By]; try discriminate; try (destruct sy; discriminate); unfold signed; simpl; auto.
Qed.

Lemma div_sign (x y : b32) s t : signed s x -> Bsign y = t -> y <> B754_nan -> signed (xorb s t) (Bdiv mode_NE x y).
Proof.
  intros Hx Hy Hn. destruct Hx as [Hx|[->|(z & ->)]].
  - destruct (Req_dec (B2R y) 0) as [H0|H0].
    + destruct y as [sy|sy| |sy my ey By]; [ | |congruence| simpl in H0; apply eq_0_F2R in H0; destruct sy; discriminate];
        destruct x as [sx|sx| |sx mx ex Bx]; simpl in *; unfold signed; simpl; subst; auto.
    + pose proof (Bdiv_correct 24 128 _ _ mode_NE x y H0) as Hc. destruct (Rlt_bool _ _).
      * destruct Hc as (_ & _ & Hs). destruct (is_nan (Bdiv mode_NE x y)) eqn:En.
        -- right. left. destruct (Bdiv mode_NE x y); try discriminate; auto.
        -- left. rewrite (Hs eq_refl), Hx, Hy. auto.
      * apply sf_inf in Hc. rewrite Hc. left. simpl. rewrite Hx, Hy. auto.
  - right. left. destruct y; reflexivity.
  - destruct y as [sy|sy| |sy my ey By]; simpl; unfold signed; eauto.
Qed.

Lemma pos_not_below (q z : b32) : Bltb (B754_zero false) q = true -> signed true z -> Bleb q z = false.
Proof.
  intros Hq Hz. destruct Hz as [Hz|[->|(s & ->)]].
  - destruct q as [sq|[]| |[] mq eq Bq]; try discriminate; destruct z as [s|s| |s m e B]; simpl in Hz; subst; reflexivity.
  - destruct q as [sq|[]| |[] mq eq Bq]; reflexivity.
  - destruct q as [sq|[]| |[] mq eq Bq]; try discriminate; reflexivity.
Qed.

(* the quality test: with a predicted decrease, a step of quality at least q > 0 lowers the cost *)
Lemma quality_binary32 (q c k p : b32) : Bltb (B754_zero false) q = true -> Bltb p k = true ->
  Bleb q (Bdiv mode_NE (Bminus mode_NE c k) (Bminus mode_NE p k)) = true -> Bltb c k = true.
Proof.
  intros Hq Hp H. destruct (Bltb c k) eqn:E; auto. exfalso. destruct (sub_below _ _ Hp) as (Hs & Hn).
  assert (Hnum : signed false (Bminus mode_NE c k)).
  { apply not_below in E. destruct E as [->|[->|E]].
    - right. left. destruct k; reflexivity.
    - destruct p as [|[]| |]; discriminate.
    - apply sub_above. auto. }
  pose proof (div_sign _ _ _ _ Hnum Hs Hn) as Hd. rewrite (pos_not_below q _ Hq Hd) in H. discriminate.
Qed.

(* ---- the damping factor ---- *)
Lemma le_finite (x y : b32) : is_finite x = true -> is_finite y = true -> (Bleb x y = true <-> B2R x <= B2R y).
Proof. intros Hx Hy. rewrite Bleb_correct by auto. destruct (Rle_bool_spec (B2R x) (B2R y)); split; intros; auto; try lra; discriminate. Qed.
Lemma lt_finite (x y : b32) : is_finite x = true -> is_finite y = true -> (Bltb x y = true <-> B2R x < B2R y).
Proof. intros Hx Hy. rewrite Bltb_correct by auto. destruct (Rlt_bool_spec (B2R x) (B2R y)); split; intros; auto; try lra; discriminate. Qed.

Definition within (hi x : b32) : Prop := is_finite x = true /\ 0 <= B2R x <= B2R hi.

Lemma below_emax (x : b32) : Rabs (B2R x) < bpow radix2 128.
Proof. apply abs_B2R_lt_emax. Qed.
Lemma rnd_id (x : b32) : rnd32 (B2R x) = B2R x.
Proof. apply round_generic; auto with typeclass_instances. apply generic_format_B2R. Qed.

Lemma div_within (hi x f : b32) : within hi x -> is_finite f = true -> 1 < B2R f ->
  within hi (Bdiv mode_NE x f) /\ B2R (Bdiv mode_NE x f) = rnd32 (B2R x / B2R f).
Proof.
  intros (Fx & H0 & Hh) Ff Hf. pose proof (Bdiv_correct 24 128 _ _ mode_NE x f ltac:(lra)) as Hc.
  assert (Hq : 0 <= B2R x / B2R f <= B2R x).
  { assert (Hi : 0 < / B2R f < 1) by (split; [apply Rinv_0_lt_compat; lra | rewrite <- Rinv_1; apply Rinv_lt_contravar; lra]).
    unfold Rdiv. split; [apply Rmult_le_pos; lra|]. rewrite <- (Rmult_1_r (B2R x)) at 2. apply Rmult_le_compat_l; lra. }
  assert (Hr : 0 <= rnd32 (B2R x / B2R f) <= B2R x).
  { split; [rewrite <- (round_0 radix2 (SpecFloat.fexp 24 128) ZnearestE)|rewrite <- (rnd_id x) at 2]; apply round_le; auto with typeclass_instances; lra. }
  rewrite Rlt_bool_true in Hc.
  - destruct Hc as (Hv & Hfin & _). split; [|auto]. unfold within. rewrite Hv, Hfin. split; [auto|]. simpl round_mode. lra.
  - simpl round_mode. rewrite Rabs_pos_eq by lra. pose proof (below_emax x). rewrite Rabs_pos_eq in H by lra. lra.
Qed.

Lemma pos_sign (x : b32) : 0 < B2R x -> Bsign x = false.
Proof. intros H. destruct (Bsign x) eqn:E; auto. apply sign_neg in E. lra. Qed.

(* maximum / minimum with a finite bound *)
Lemma min_finite (x y : b32) : is_finite x = true -> is_finite y = true -> is_finite (bmin x y) = true /\ B2R (bmin x y) = Rmin (B2R x) (B2R y).
Proof.
  intros Hx Hy. assert (E : bmin x y = if Bltb y x then y else x) by (destruct x, y; try discriminate; reflexivity). rewrite E.
  destruct (Bltb y x) eqn:El; [apply lt_finite in El; auto; rewrite Rmin_right by lra; auto|].
  assert (~ B2R y < B2R x) by (intros Hn; apply lt_finite in Hn; auto; congruence). rewrite Rmin_left by lra. auto.
Qed.
Lemma max_finite (x y : b32) : is_finite x = true -> is_finite y = true -> is_finite (bmax x y) = true /\ B2R (bmax x y) = Rmax (B2R x) (B2R y).
Proof.
  intros Hx Hy. assert (E : bmax x y = if Bltb x y then y else x) by (destruct x, y; try discriminate; reflexivity). rewrite E.
  destruct (Bltb x y) eqn:El; [apply lt_finite in El; auto; rewrite Rmax_right by lra; auto|].
  assert (~ B2R x < B2R y) by (intros Hn; apply lt_finite in Hn; auto; congruence). rewrite Rmax_left by lra. auto.
Qed.

(* the clipped product: between lo and hi, and at least the smaller of the factor x and hi *)
Lemma clip_within (lo hi x f : b32) : is_finite lo = true -> is_finite hi = true -> 0 <= B2R lo <= B2R hi -> within hi x ->
  is_finite f = true -> 1 < B2R f ->
  let y := bmax lo (bmin (Bmult mode_NE x f) hi) in within hi y /\ B2R lo <= B2R y /\ B2R x <= B2R y.
Proof.
  intros Fl Fh Hl (Fx & H0 & Hh) Ff Hf y. pose proof (Bmult_correct 24 128 _ _ mode_NE x f) as Hc.
  assert (Hge : B2R x <= B2R x * B2R f) by (rewrite <- (Rmult_1_r (B2R x)) at 1; apply Rmult_le_compat_l; lra).
  assert (Hr : B2R x <= rnd32 (B2R x * B2R f)).
  { rewrite <- (rnd_id x) at 1. apply round_le; auto with typeclass_instances. }
  destruct (Rlt_bool_spec (Rabs (round radix2 (SpecFloat.fexp 24 128) (round_mode mode_NE) (B2R x * B2R f))) (bpow radix2 128)) as [Hlt|Hge2].
  - destruct Hc as (Hv & Hfin & _). rewrite Fx, Ff in Hfin. destruct (min_finite _ hi Hfin Fh) as (F1 & E1).
    destruct (max_finite lo _ Fl F1) as (F2 & E2). fold y in F2, E2. unfold within. rewrite E2, E1, Hv. simpl round_mode.
    split; [split; [auto|]|]; unfold Rmax, Rmin; repeat destruct (Rle_dec _ _); lra.
  - assert (Hx0 : 0 < B2R x).
    { destruct (Rle_lt_or_eq_dec _ _ H0) as [|E]; auto. exfalso. rewrite <- E, Rmult_0_l, round_0 in Hge2 by auto with typeclass_instances.
      rewrite Rabs_R0 in Hge2. pose proof (bpow_gt_0 radix2 128). lra. }
    rewrite (pos_sign x Hx0), (pos_sign f) in Hc by lra. apply sf_inf in Hc.
    assert (E1 : bmin (Bmult mode_NE x f) hi = hi) by (rewrite Hc; destruct hi as [s|s| |[] m e B]; try discriminate; reflexivity).
    destruct (max_finite lo hi Fl Fh) as (F2 & E2). unfold y. rewrite E1. unfold within. rewrite E2.
    split; [split; [auto|]|]; unfold Rmax; destruct (Rle_dec _ _); lra.
Qed.

(* halving keeps at least the next smaller power of two, down to the smallest subnormal *)
Lemma half_above (x : b32) e : bpow radix2 e <= B2R x -> (-149 < e)%Z -> bpow radix2 (e - 1) <= rnd32 (B2R x / 2).
Proof.
  intros H He. apply round_ge_generic; auto with typeclass_instances.
  - apply generic_format_bpow. unfold SpecFloat.fexp, SpecFloat.emin. simpl. lia.
  - unfold Zminus. rewrite bpow_plus. change (bpow radix2 (- (1))) with (/ 2). unfold Rdiv. apply Rmult_le_compat_r; [lra|auto].
Qed.

(* ---- never below zero ---- *)
Lemma signed_lt (x : b32) : signed false x <-> Bltb x (B754_zero false) = false.
Proof.
  split.
  - intros [H|[->|(z & ->)]]; [|reflexivity|reflexivity]. destruct x as [s|s| |s m e B]; simpl in H; subst; reflexivity.
  - intros H. destruct x as [s|[]| |[] m e B]; unfold signed; simpl; eauto; discriminate.
Qed.
Lemma sqrt_signed (x : b32) : signed false (Bsqrt mode_NE x).
Proof.
  destruct x as [s|[]| |[] m e B]; try (unfold signed; simpl; eauto; fail).
  pose proof (Bsqrt_correct 24 128 _ _ mode_NE (B754_finite false m e B)) as (_ & _ & Hs).
  destruct (is_nan (Bsqrt mode_NE (B754_finite false m e B))) eqn:En.
  - right. left. destruct (Bsqrt mode_NE _); try discriminate. reflexivity.
  - left. rewrite Hs by auto. reflexivity.
Qed.
Lemma mult_signed (x y : b32) : Bsign x = false -> x <> B754_nan -> signed false y -> signed false (Bmult mode_NE x y).
Proof.
  intros Hx Hn Hy. destruct Hy as [Hy|[->|(z & ->)]].
  - pose proof (Bmult_correct 24 128 _ _ mode_NE x y) as Hc. destruct (Rlt_bool _ _).
    + destruct Hc as (_ & _ & Hs). destruct (is_nan (Bmult mode_NE x y)) eqn:En.
      * right. left. destruct (Bmult mode_NE x y); try discriminate. reflexivity.
      * left. rewrite Hs by auto. rewrite Hx, Hy. reflexivity.
    + apply sf_inf in Hc. rewrite Hc, Hx, Hy. left. reflexivity.
  - right. left. destruct x; reflexivity.
  - destruct x as [s|s| |s m e B]; simpl; unfold signed; eauto.
Qed.
Lemma max_signed (x y : b32) : signed false x -> signed false y -> signed false (bmax x y).
Proof.
  intros Hx Hy. unfold bmax. destruct x eqn:Ex, y eqn:Ey; try (right; left; reflexivity); destruct (Bltb _ _); auto.
Qed.
