(* Proofs: concatenated vectors; injective linear maps are bounded below; whitening near a zero residual. *)
From Coq Require Import List Arith Bool Lia Reals Lra Psatz.
From Verif Require Import Num NumR Py Arr MLayout MAssign MNoise MSparse MFactor MGraph MLie MPose SpecNoise SpecGraph SpecLie SpecPose SpecZero SpecTwin PVec PSolverR PNoise PDescent PLocal PLin PTwin2 PZero PNear PBasin4 PBasin5.
Import ListNotations.
Local Open Scope R_scope.

Lemma nth_zero i k : nth i (vzero k : list R) 0 = 0.
Proof. unfold vzero. apply nth_repeat. Qed.

(* ---- concatenations ---- *)
Section Flat.
Context {X : Type}.
Lemma flat_sumsq (a : X -> list R) l : sumsq (flat_map a l) = vsum (map (fun x => sumsq (a x)) l).
Proof. induction l as [|x l IH]; cbn [flat_map map]; [reflexivity|]. rewrite sumsq_app, vsum_cons, IH. auto. Qed.
Lemma flat_len (a b : X -> list R) l : (forall x, In x l -> length (a x) = length (b x)) -> length (flat_map a l) = length (flat_map b l).
Proof. induction l as [|x l IH]; intros H; cbn [flat_map]; auto. rewrite !app_length, IH by (intros; apply H; right; auto). rewrite H; auto. left; auto. Qed.
Lemma flat_dot (a b : X -> list R) l : (forall x, In x l -> length (a x) = length (b x)) -> vdot (flat_map a l) (flat_map b l) = vsum (map (fun x => vdot (a x) (b x)) l).
Proof.
  induction l as [|x l IH]; intros H; cbn [flat_map map]; [reflexivity|]. rewrite PVec.vdot_app by (apply H; left; auto). rewrite vsum_cons, IH; auto. intros; apply H; right; auto.
Qed.
Lemma app_zip (f : R -> R -> R) (a b c d : list R) : length a = length b -> zipw f (a ++ c) (b ++ d) = zipw f a b ++ zipw f c d.
Proof. revert b. induction a as [|x a IH]; intros [|y b] H; try discriminate; auto. cbn. f_equal. apply IH. injection H. auto. Qed.
Lemma flat_add (a b : X -> list R) l : (forall x, In x l -> length (a x) = length (b x)) -> vadd (flat_map a l) (flat_map b l) = flat_map (fun x => vadd (a x) (b x)) l.
Proof.
  induction l as [|x l IH]; intros H; cbn [flat_map]; [reflexivity|]. unfold vadd at 1. rewrite app_zip by (apply H; left; auto). fold (vadd (flat_map a l) (flat_map b l)). rewrite IH; auto. intros; apply H; right; auto.
Qed.
Lemma flat_sub (a b : X -> list R) l : (forall x, In x l -> length (a x) = length (b x)) -> vsub (flat_map a l) (flat_map b l) = flat_map (fun x => vsub (a x) (b x)) l.
Proof.
  induction l as [|x l IH]; intros H; cbn [flat_map]; [reflexivity|]. unfold vsub at 1. rewrite app_zip by (apply H; left; auto). fold (vsub (flat_map a l) (flat_map b l)). rewrite IH; auto. intros; apply H; right; auto.
Qed.
Lemma flat_ext (a b : X -> list R) l : (forall x, In x l -> a x = b x) -> flat_map a l = flat_map b l.
Proof. induction l as [|x l IH]; intros H; cbn [flat_map]; auto. rewrite IH by (intros; apply H; right; auto). rewrite H; auto. left; auto. Qed.
Lemma flat_scale t (a : X -> list R) l : vscale t (flat_map a l) = flat_map (fun x => vscale t (a x)) l.
Proof. induction l as [|x l IH]; cbn [flat_map]; auto. rewrite <- IH. unfold vscale. apply map_app. Qed.
Lemma flat_zero (a : X -> list R) l k : flat_map a l = vzero k -> forall x, In x l -> a x = vzero (length (a x)).
Proof.
  intros H x Hx. assert (Hz : Forall (fun y => y = 0) (flat_map a l)) by (rewrite H; apply Forall_forall; intros y Hy; apply repeat_spec in Hy; auto).
  rewrite Forall_forall in Hz. assert (Ha : forall y, In y (a x) -> y = 0) by (intros y Hy; apply Hz, in_flat_map; eauto).
  clear - Ha. induction (a x) as [|y r IH]; auto. change (vzero (length (y :: r)) : list R) with (0 :: vzero (length r) : list R). rewrite (Ha y (or_introl eq_refl)). f_equal. apply IH. intros; apply Ha; right; auto.
Qed.
Lemma norm_app (a b : list R) : vnorm (a ++ b) <= vnorm a + vnorm b.
Proof.
  pose proof (norm_pos a). pose proof (norm_pos b). apply norm_le_of; [lra|]. rewrite sumsq_app. destruct (vnorm_sq a) as (_ & <-). destruct (vnorm_sq b) as (_ & <-). nra.
Qed.
Lemma flat_norm (a : X -> list R) c l : (forall x, In x l -> vnorm (a x) <= c) -> vnorm (flat_map a l) <= INR (length l) * c.
Proof.
  induction l as [|x l IH]; intros H; cbn [flat_map]; [change (length (@nil X)) with 0%nat; cbn [INR]; rewrite Rmult_0_l; right; apply vnorm_eq; [lra | change (sumsq []) with 0; ring]|].
  change (length (x :: l)) with (S (length l)). rewrite S_INR. pose proof (norm_app (a x) (flat_map a l)). pose proof (H x (or_introl eq_refl)). pose proof (IH (fun y Hy => H y (or_intror Hy))). lra.
Qed.
Lemma flat_part (a : X -> list R) l x : In x l -> vnorm (a x) <= vnorm (flat_map a l).
Proof.
  intros Hx. pose proof (norm_pos (flat_map a l)) as P. apply norm_le_of; auto. destruct (vnorm_sq (flat_map a l)) as (_ & ->).
  induction l as [|y l IH]; [destruct Hx|]. cbn [flat_map]. rewrite sumsq_app. pose proof (sumsq_nonneg (a y)). pose proof (sumsq_nonneg (flat_map a l)). destruct Hx as [->|Hx]; [lra|].
  pose proof (IH Hx (norm_pos _)). lra.
Qed.
End Flat.

(* ---- injective linear maps ---- *)
Section Injective.
Variable m : nat.
Definition linmap (n : nat) (F : list R -> list R) : Prop := (forall x, length x = n -> length (F x) = m) /\
  forall x y t, length x = n -> length y = n -> F (vadd x (vscale t y)) = vadd (F x) (vscale t (F y)).
Lemma lin_zero n F : linmap n F -> F (vzero n) = vzero m.
Proof.
  intros (L & H). assert (Lz : length (vzero n : list R) = n) by apply vzero_length. pose proof (H (vzero n) (vzero n) (-1) Lz Lz) as E.
  assert (E0 : vadd (vzero n) (vscale (-1) (vzero n)) = (vzero n : list R)).
  { apply (nth_ext' _ _ 0); [rewrite vadd_length; rewrite ?vscale_length; auto|]. intros i _. rewrite nth_vadd by (rewrite vscale_length; auto). rewrite nth_vscale. rewrite ?nth_zero. ring. }
  rewrite E0 in E. rewrite E at 1. pose proof (L _ Lz) as LF. apply (nth_ext' _ _ 0); [rewrite vadd_length, vzero_length; rewrite ?vscale_length; auto|].
  intros i _. rewrite nth_vadd by (rewrite vscale_length; auto). rewrite nth_vscale. rewrite nth_zero. ring.
Qed.
Lemma inj_bound n : forall F, linmap n F -> (forall x, length x = n -> F x = vzero m -> x = vzero n) ->
  (exists c, 0 < c /\ forall x, length x = n -> c * sumsq x <= sumsq (F x)) /\
  forall b, length b = m -> exists y, length y = n /\ forall x, length x = n -> vdot (F x) (vadd b (F y)) = 0.
Proof.
  induction n as [|n IH]; intros F (LF & HF) Inj.
  - split.
    + exists 1. split; [lra|]. intros x Hx. destruct x; [|discriminate]. change (sumsq []) with 0. pose proof (sumsq_nonneg (F [])). lra.
    + intros b Hb. exists []. split; auto. intros x Hx. destruct x; [|discriminate]. pose proof (lin_zero 0 F (conj LF HF)) as Z. change (vzero 0 : list R) with (@nil R) in Z. rewrite Z. rewrite vdot_comm. apply vdot_zero_r.
  - set (G := fun y => F (0 :: y)).
    assert (Lc : forall a (y : list R), length y = n -> length (a :: y) = S n) by (intros; cbn; lia).
    assert (LG : linmap n G).
    { split; [intros x Hx; apply LF, Lc; auto|]. intros x y t Hx Hy. unfold G. rewrite <- HF by auto. f_equal. rewrite vscale_cons, vadd_cons. f_equal. ring. }
    destruct (IH G LG) as ((c & Hc & Hlow) & Hproj).
    { intros x Hx HG. specialize (Inj (0 :: x) (Lc _ _ Hx) HG). change (vzero (S n) : list R) with (0 :: vzero n : list R) in Inj. injection Inj. auto. }
    pose proof (vzero_length (T := R) n) as Lz. set (p := F (1 :: vzero n)). assert (Lp : length p = m) by (apply LF, Lc; auto).
    destruct (Hproj p Lp) as (y0 & Ly0 & Ho). destruct LG as (LG & HG). set (q := vadd p (G y0)) in *. assert (Lq : length q = m) by (unfold q; rewrite vadd_length; rewrite ?LG; auto).
    assert (Eq : q = F (1 :: y0)).
    { unfold q, p, G. assert (E : 1 :: y0 = vadd (1 :: vzero n) (vscale 1 (0 :: y0))). { rewrite vscale_one, vadd_cons. f_equal; [ring|]. apply (nth_ext' _ _ 0); [rewrite vadd_length; congruence|]. intros i _. rewrite nth_vadd by congruence. rewrite ?nth_zero. ring. }
      rewrite E, HF, vscale_one by auto. auto. }
    assert (Hq : 0 < sumsq q).
    { destruct (Rle_lt_or_eq_dec 0 (sumsq q) (sumsq_nonneg q)) as [H|H]; auto. exfalso. symmetry in H. apply (proj1 (PVec.sumsq_zero _)) in H. rewrite Lq in H. rewrite Eq in H.
      specialize (Inj (1 :: y0) (Lc _ _ Ly0) H). change (vzero (S n) : list R) with (0 :: vzero n : list R) in Inj. injection Inj. intros. lra. }
    assert (EF : forall a y, length y = n -> F (a :: y) = vadd (G (vsub y (vscale a y0))) (vscale a q)).
    { intros a y Hy. assert (Ls : length (vsub y (vscale a y0)) = n) by (rewrite vsub_length; rewrite ?vscale_length; congruence). rewrite Eq. unfold G. rewrite <- HF by auto. f_equal. rewrite vscale_cons, vadd_cons. f_equal; [ring|].
      apply (nth_ext' _ _ 0); [rewrite vadd_length; rewrite ?vscale_length; congruence|]. intros i _. rewrite nth_vadd, nth_vsub, !nth_vscale by (rewrite ?vscale_length; congruence). ring. }
    split.
    + set (s := sumsq y0). assert (Ps : 0 <= s) by apply sumsq_nonneg. set (k := Rmin (c / 2) (sumsq q / (1 + 2 * s))). exists k.
      split; [apply Rmin_pos; [lra|]; apply Rdiv_lt_0_compat; lra|]. intros [|a y] Hx; [discriminate|]. injection Hx as Hx. rewrite EF by auto.
      set (u := vsub y (vscale a y0)). assert (Lu : length u = n) by (unfold u; rewrite vsub_length; rewrite ?vscale_length; congruence).
      rewrite sumsq_add by (rewrite vscale_length, LG; auto). rewrite vdot_scale_r, (Ho u Lu), sumsq_scale. rewrite sumsq_cons.
      assert (Ey : y = vadd u (vscale a y0)). { apply (nth_ext' _ _ 0); [rewrite vadd_length; rewrite ?vscale_length; congruence|]. intros i _. unfold u. rewrite nth_vadd, nth_vsub, !nth_vscale by (rewrite ?vsub_length; rewrite ?vscale_length; congruence). ring. }
      assert (Hy : sumsq y <= 2 * sumsq u + 2 * (a * a * s)).
      { pose proof (sumsq_nonneg (vsub u (vscale a y0))) as H. replace (sumsq y) with (sumsq (vadd u (vscale a y0))) by (rewrite <- Ey; auto). rewrite sumsq_add by (rewrite vscale_length; congruence). rewrite sumsq_sub in H by (rewrite vscale_length; congruence). rewrite sumsq_scale in H |- *. fold s in H |- *. lra. }
      pose proof (Hlow u Lu) as H1. pose proof (sumsq_nonneg u) as Pu. assert (Pa : 0 <= a * a) by nra.
      assert (K1 : k <= c / 2) by apply Rmin_l. assert (K2 : k * (1 + 2 * s) <= sumsq q).
      { assert (H : k <= sumsq q / (1 + 2 * s)) by apply Rmin_r. apply (Rmult_le_compat_r (1 + 2 * s)) in H; [|lra]. replace (sumsq q / (1 + 2 * s) * (1 + 2 * s)) with (sumsq q) in H by (field; lra). auto. }
      assert (K0 : 0 <= k) by (apply Rmin_glb; [lra|]; apply Rlt_le, Rdiv_lt_0_compat; lra).
      assert (k * (a * a + sumsq y) <= k * (a * a + (2 * sumsq u + 2 * (a * a * s)))) by (apply Rmult_le_compat_l; lra).
      assert (k * (2 * sumsq u) <= c / 2 * (2 * sumsq u)) by (apply Rmult_le_compat_r; lra). assert (k * (1 + 2 * s) * (a * a) <= sumsq q * (a * a)) by (apply Rmult_le_compat_r; auto). lra.
    + intros b Hb. destruct (Hproj b Hb) as (y & Ly & Hy). set (a := - (vdot b q / sumsq q)). exists (a :: vadd y (vscale a y0)).
      assert (Lya : length (vadd y (vscale a y0)) = n) by (rewrite vadd_length; rewrite ?vscale_length; congruence). split; [apply Lc; auto|].
      assert (E : F (a :: vadd y (vscale a y0)) = vadd (G y) (vscale a q)).
      { rewrite EF by auto. f_equal. f_equal. apply (nth_ext' _ _ 0); [rewrite vsub_length; rewrite ?vscale_length; congruence|]. intros i _. rewrite nth_vsub, nth_vadd, !nth_vscale by (rewrite ?vscale_length; congruence). ring. }
      rewrite E. intros [|x0 x] Hx; [discriminate|]. injection Hx as Hx. rewrite EF by auto. set (u := vsub x (vscale x0 y0)). assert (Lu : length u = n) by (unfold u; rewrite vsub_length; rewrite ?vscale_length; congruence).
      pose proof (Hy u Lu) as H1. pose proof (Ho u Lu) as H2. pose proof (Ho y Ly) as H3. pose proof (LG u Lu) as Lgu. pose proof (LG y Ly) as Lgy.
      rewrite vdot_add_l by (rewrite vscale_length; congruence). rewrite !vdot_add_r by (rewrite ?vadd_length; rewrite ?vscale_length; congruence). rewrite vdot_add_r in H1 by congruence.
      rewrite (vdot_comm (vscale x0 q)). rewrite (vdot_comm (vscale x0 q)). rewrite (vdot_comm (vscale x0 q)). rewrite !vdot_scale_r. rewrite (vdot_comm (vscale a q) q), vdot_scale_r. rewrite <- sumsq_dot, H2, H3.
      replace (vdot b q) with (- (a * sumsq q)) by (unfold a; field; lra). lra.
Qed.
End Injective.
