(* Proofs: on graphs of rotations with isotropic noise the solvers follow the gradient of the
   cost, at every residual short of a half turn. *)
From Coq Require Import List Arith Bool Lia Reals Lra.
From Verif Require Import Num NumR Py Arr MLayout MAssign MNoise MSparse MFactor MGraph MLie MPose SpecLayout SpecTree SpecAssign SpecGraph SpecSparse SpecDeriv SpecNoise SpecLie SpecPose SpecZero SpecSpatial SpecTwin SpecInv SpecOrder SpecBook SpecSettle.
From Verif Require Import PBase PLayout PTree PAssign PAssign2 PAssign3 PStack PGraph PGraph2 PJac PVec PSparse PGraph3 PGraph4 PGraph5 PDeriv PNoise PLie PPose PFrame PZero PJacZero PSpatial PSpatial2 PSpatial3 PSpatial4 PSolverR PLoss PTwin PBook PSettle1 PSettle2 PSettle3.
Import ListNotations.
Local Open Scope R_scope.

Section Group.
Variable raw : lie_ops R (list R).
Hypothesis Ht : turning raw.
Let Hk : known raw := turning_known raw Ht.
Notation "a ** b" := (lg_mul raw a b) (at level 40, left associativity).
Notation "a ^-" := (lg_inv raw a) (at level 2, format "a ^-").
Notation good p := (legal_pose raw p).

Lemma assoc_so a b c : a ** b ** c = a ** (b ** c).
Proof. destruct Ht; cbn [lg_mul raw_so2 raw_so3]; [unfold so2_mul; cbn [nth]; lists; ring | apply quat_assoc]. Qed.
Lemma legal_mul a b : good a -> good b -> good (a ** b).
Proof. intros (_ & Ua) (_ & Ub). split; [apply sized_mul; auto | apply unit_mul; auto]. Qed.
Lemma legal_inv a : good a -> good (a^-).
Proof. intros (_ & Ua). split; [apply sized_inv; auto | apply unit_inv; auto]. Qed.
Lemma legal_exp d : good (lg_exp raw d).
Proof.
  destruct Ht; (split; [reflexivity|]).
  - split; [intros _; unfold norm2; cbn; apply rot_exp_unit | intros H; exfalso; eapply not_both; eauto; constructor].
  - apply (unit_exp raw_so3). constructor.
Qed.
Lemma exp_conj g d : good g -> length d = lg_dim raw -> lg_exp raw (mvec (lg_adj raw g) d) = g ** lg_exp raw d ** g^-.
Proof.
  intros (Lg & Ug). destruct Ht; intros Hd; [|apply (exp_adj raw_so3 spatial_so3); auto].
  destruct (so2_rot g Lg (proj1 Ug planar_so2)) as (a & ->). destruct d as [|u [|]]; try discriminate.
  cbn [lg_exp lg_adj lg_mul lg_inv raw_so2]. unfold so2_exp, so2_mul, so2_inv, mvec, rot_params. cbn [map nth]. rewrite vdot_cons, vdot_nil_l. rewrite Rmult_1_l, Rplus_0_r.
  pose proof (r_unit a) as Hu. lists.
  - replace ((rc a * cos u - rs a * sin u) * rc a - (rs a * cos u + rc a * sin u) * - rs a) with (cos u * (rc a * rc a + rs a * rs a)) by ring. rewrite Hu. ring.
  - replace ((rs a * cos u + rc a * sin u) * rc a + (rc a * cos u - rs a * sin u) * - rs a) with (sin u * (rc a * rc a + rs a * rs a)) by ring. rewrite Hu. ring.
Qed.

Lemma prior_swing mu x d : good mu -> good x -> length d = lg_dim raw -> vnorm (prior_residual raw mu x) < PI ->
  derivable_pt_lim (fun t => sumsq (prior_residual raw mu (lie_retract raw x (vscale t d)))) 0 (2 * vdot (prior_residual raw mu x) (vneg d)).
Proof.
  intros Hm Hx Hd Hb. pose proof (swing_deriv raw (x^- ** mu) d (vzero (lg_dim raw)) Ht (legal_mul _ _ (legal_inv _ Hx) Hm) Hb Hd (vzero_length _)) as H.
  replace (vneg d) with (vsub (vzero (lg_dim raw)) d).
  2: { destruct Ht; cbn [lg_dim raw_so2 raw_so3] in *; [destruct d as [|? [|]] | destruct d as [|? [|? [|? [|]]]]]; try discriminate; unfold vsub, vneg, vzero; cbn; lists; ring. }
  eapply deriv_ext; [|exact H]. intros t. cbv beta. f_equal. unfold prior_residual, rminus, lie_retract, rplus. f_equal.
  assert (Ez : lg_exp raw (vscale t (vzero (lg_dim raw))) = lg_one raw).
  { destruct Ht; cbn [lg_exp lg_one lg_dim raw_so2 raw_so3]; unfold vscale, vzero; cbn [repeat map n0 nmul NumR].
    - unfold so2_exp. cbn [nth]. rewrite Rmult_0_r, cos_0, sin_0. auto.
    - rewrite Rmult_0_r. rewrite quat_exp_form. unfold ec, ek. assert (El : len3 [0; 0; 0] = 0) by (unfold len3; cbn [nth]; rewrite Rmult_0_l, !Rplus_0_r; apply sqrt_0). rewrite El. replace (0 / 2) with 0 by field. rewrite cos_0. cbn [nth]. rewrite Rmult_0_r. auto. }
  rewrite Ez. assert (Eo : lg_one raw ** (x^- ** mu) = x^- ** mu).
  { destruct Ht; cbn [lg_mul lg_one lg_inv raw_so2 raw_so3]; unfold so2_mul, quat_mul; cbn [nth]; lists; ring. }
  rewrite Eo. rewrite (inv_of_mul raw Hk) by (try apply Hx; apply legal_exp). symmetry. apply assoc_so.
Qed.
Lemma between_swing s a b da db : good s -> good a -> good b -> length da = lg_dim raw -> length db = lg_dim raw -> vnorm (between_residual raw s a b) < PI ->
  derivable_pt_lim (fun t => sumsq (between_residual raw s (lie_retract raw a (vscale t da)) (lie_retract raw b (vscale t db)))) 0
    (2 * vdot (between_residual raw s a b) (vsub (mvec (lg_adj raw ((a^- ** b)^-)) da) db)).
Proof.
  intros Hs Ha Hb Hda Hdb Hn. set (g := (a^- ** b)^-) in *. assert (Hg : good g) by (apply legal_inv, legal_mul; auto; apply legal_inv; auto).
  set (e := mvec (lg_adj raw g) da). assert (He : length e = lg_dim raw) by (unfold e, mvec; rewrite map_length; destruct Ht; reflexivity).
  pose proof (swing_deriv raw (g ** s) db e Ht (legal_mul _ _ Hg Hs) Hn Hdb He) as H.
  eapply deriv_ext; [|exact H]. intros t. cbv beta. f_equal. unfold between_residual, rminus, lie_retract, rplus. f_equal.
  unfold e. rewrite <- mvec_vscale', exp_conj by (auto; unfold vscale; rewrite map_length; auto).
  set (x := lg_exp raw (vscale t da)). set (y := lg_exp raw (vscale t db)). assert (Hx : good x) by apply legal_exp. assert (Hy : good y) by apply legal_exp.
  assert (Ix : good (x^-)) by (apply legal_inv; auto). assert (Ia : good (a^-)) by (apply legal_inv; auto).
  assert (Eg : (a^- ** b)^- = b^- ** a).
  { rewrite (inv_of_mul raw Hk) by (try apply Hb; apply Ia). rewrite (inv_of_inv raw Hk) by apply Ha. auto. }
  assert (E1 : ((a ** x)^- ** (b ** y))^- = y^- ** b^- ** a ** x).
  { rewrite (inv_of_mul raw Hk) by (try (apply legal_inv, legal_mul; auto); apply legal_mul; auto). rewrite (inv_of_mul raw Hk b y) by (try apply Hb; apply Hy).
    rewrite (inv_of_inv raw Hk) by (apply legal_mul; auto). rewrite <- !assoc_so. auto. }
  rewrite E1. unfold g. rewrite Eg. rewrite !assoc_so. f_equal. f_equal. f_equal. f_equal.
  (* the inverse cancels *)
  assert (Hba : good (b^- ** a)) by (apply legal_mul; auto; apply legal_inv; auto).
  rewrite <- (assoc_so (b^-) a s). rewrite <- assoc_so. rewrite (inv_l raw Hk (b^- ** a)) by apply Hba.
  symmetry. destruct Ht; cbn [lg_mul lg_one raw_so2 raw_so3]; destruct Hs as (Ls & _); cbn in Ls; [destruct s as [|? [|? [|]]] | destruct s as [|? [|? [|? [|? [|]]]]]]; try discriminate; unfold so2_mul, quat_mul; cbn [nth]; lists; ring.
Qed.
End Group.
