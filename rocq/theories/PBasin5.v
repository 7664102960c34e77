(* Proofs: residuals and Jacobians of pose factors near poses at which the measurement holds. *)
From Coq Require Import List Arith Bool Lia Reals Lra Psatz.
From Verif Require Import Num NumR MLie SpecNoise SpecLie SpecPose SpecZero SpecSpatial PVec PLie PExLie PPose PFrame PZero PJacZero PSolverR PNoise PDescent PLocal PLin PSpatial PSpatial2 PSpatial3 PSpatial4 PTwin2 PBasin PBasin2 PBasin3 PBasin4.
Import ListNotations.
Local Open Scope R_scope.

(* ---- norms ---- *)
Lemma norm_add (a b : list R) : length a = length b -> vnorm (vadd a b) <= vnorm a + vnorm b.
Proof. intros H. pose proof (norm_pos a). pose proof (norm_pos b). apply norm_le_of; [lra|]. apply norm_triangle; auto. Qed.
Lemma nth_vneg (a : list R) i : nth i (vneg a) 0 = - nth i a 0.
Proof. unfold vneg. replace 0 with (nneg (T := R) 0) at 1 by (rn; lra). rewrite (map_nth nneg). reflexivity. Qed.
Lemma norm_neg (a : list R) : vnorm (vneg a) = vnorm a.
Proof. pose proof (vnorm_sq a) as (H0 & H1). apply vnorm_eq; auto. rewrite sumsq_neg. auto. Qed.
Lemma norm_mid (a b c : list R) : length a = length b -> length b = length c -> vnorm (vsub a c) <= vnorm (vsub a b) + vnorm (vsub b c).
Proof.
  intros H H'. replace (vsub a c) with (vadd (vsub a b) (vsub b c)); [apply norm_add; rewrite !vsub_length; congruence|].
  apply (nth_ext' _ _ 0); [rewrite vadd_length; rewrite !vsub_length; congruence|]. intros i _. rewrite nth_vadd by (rewrite !vsub_length; congruence). rewrite !nth_vsub by congruence. ring.
Qed.
Lemma norm_flip (a b : list R) : length a = length b -> vnorm (vsub a b) = vnorm (vsub b a).
Proof.
  intros H. rewrite <- norm_neg. f_equal. apply (nth_ext' _ _ 0); [rewrite vneg_length; rewrite !vsub_length; congruence|]. intros i _. rewrite nth_vneg. rewrite !nth_vsub by congruence. ring.
Qed.
Lemma norm_split (a b : list R) : length a = length b -> vnorm a <= vnorm (vsub a b) + vnorm b.
Proof.
  intros H. replace a with (vadd (vsub a b) b) at 1; [apply norm_add; rewrite !vsub_length; congruence|].
  apply (nth_ext' _ _ 0); [rewrite vadd_length; rewrite !vsub_length; congruence|]. intros i _. rewrite nth_vadd by (rewrite !vsub_length; congruence). rewrite !nth_vsub by congruence. ring.
Qed.
Lemma mvec_sub (M : list (list R)) a b : length a = length b -> mvec M (vsub a b) = vsub (mvec M a) (mvec M b).
Proof. intros H. unfold mvec, vsub. induction M as [|row M IH]; cbn [map zipw]; auto. f_equal; auto. apply vdot_sub_r. auto. Qed.
Lemma mvec_bound k (M : list (list R)) : Forall (fun row => length row = k) M -> exists c, 0 <= c /\ forall w, length w = k -> vnorm (mvec M w) <= c * vnorm w.
Proof.
  induction 1 as [|row M Hr HM (c & Hc & IH)].
  - exists 0. split; [lra|]. intros w _. rewrite Rmult_0_l. right. apply vnorm_eq; [lra|]. change (sumsq (mvec [] w)) with 0. ring.
  - exists (vnorm row + c). pose proof (norm_pos row) as Pr. split; [lra|]. intros w Hw. pose proof (norm_pos w) as Pw. specialize (IH w Hw).
    apply norm_le_of; [apply Rmult_le_pos; lra|]. change (sumsq (mvec (row :: M) w)) with (vdot row w * vdot row w + sumsq (mvec M w)).
    destruct (vnorm_sq (mvec M w)) as (N0 & N1). rewrite <- N1. pose proof (cauchy_schwarz row w ltac:(congruence)) as CS. destruct (vnorm_sq row) as (_ & R1). destruct (vnorm_sq w) as (_ & W1). rewrite <- R1, <- W1 in CS.
    assert (H1 : vnorm (mvec M w) * vnorm (mvec M w) <= (c * vnorm w) * (c * vnorm w)) by (apply Rmult_le_compat; auto).
    assert (0 <= vnorm row * vnorm w * (c * vnorm w)) by (repeat apply Rmult_le_pos; auto). nra.
Qed.
Lemma zero_sumsq k : sumsq (vzero k : list R) = 0.
Proof. induction k as [|k IH]; [reflexivity|]. change (sumsq (vzero (S k) : list R)) with (0 * 0 + sumsq (vzero k : list R)). rewrite IH. ring. Qed.
Lemma zero_norm k : vnorm (vzero k : list R) = 0.
Proof. apply vnorm_eq; [lra|]. rewrite zero_sumsq. ring. Qed.

Section Group.
Variable raw : lie_ops R (list R).
Hypothesis Hk : known raw.
Notation "a ** b" := (lg_mul raw a b) (at level 40, left associativity).
Notation "a ^-" := (lg_inv raw a) (at level 2, format "a ^-").
Notation "p ~~ q" := (same_pose raw p q) (at level 70).
Notation n := (lg_dim raw).
Notation good p := (sized_pose raw p /\ unit_pose raw p).

Lemma good_exp d : good (lg_exp raw d). Proof. split; [apply k_sized_exp; auto | apply k_unit_exp; auto]. Qed.
Lemma good_mul a b : good a -> good b -> good (a ** b). Proof. intros (_ & Ua) (_ & Ub). split; [apply sized_mul; auto | apply unit_mul; auto]. Qed.
Lemma good_inv a : good a -> good (a^-). Proof. intros (_ & Ua). split; [apply sized_inv; auto | apply unit_inv; auto]. Qed.
Lemma exp_zero_one : lg_exp raw (vzero n) = lg_one raw.
Proof.
  destruct Hk as [[]|Hs]; [| |apply exp_zero; auto]; cbn; unfold so2_exp, se2_exp; cbn [nth]; rewrite ?cos_0, ?sin_0, ?v_s_0, ?v_c_0; lists; ring.
Qed.

(* the residual is the logarithm of exp x^-1 exp y *)
Lemma same_logs q x y d : (forall x y, length x = n -> length y = n -> vnorm x <= d -> vnorm y <= d -> let q := (lg_exp raw x)^- ** lg_exp raw y in lg_exp raw (lg_log raw q) = q /\ (spatial raw -> 0 < q.[0])) ->
  sized_pose raw q -> q ~~ (lg_exp raw x)^- ** lg_exp raw y -> length x = n -> length y = n -> vnorm x <= d -> vnorm y <= d -> lg_log raw q = lg_log raw ((lg_exp raw x)^- ** lg_exp raw y).
Proof.
  intros Hd Lq Hq Lx Ly Hx Hy. destruct (Hd x y Lx Ly Hx Hy) as (_ & Hpos). destruct Hk as [Hp|Hs].
  - f_equal. apply (planar_same raw); auto.
  - specialize (Hpos Hs). apply same_log; auto; [apply sized_mul; auto | lra].
Qed.
Lemma moved_prior mu x d : good mu -> good x -> x ~~ mu -> exists q, sized_pose raw q /\ prior_residual raw mu (lie_retract raw x d) = lg_log raw q /\ q ~~ (lg_exp raw d)^- ** lg_exp raw (vzero n).
Proof.
  intros (Lm & Um) (Lx & Ux) H. exists ((x ** lg_exp raw d)^- ** mu). split; [apply sized_mul; auto|]. split; [reflexivity|].
  assert (Ue : unit_pose raw (lg_exp raw d)) by (apply k_unit_exp; auto). rewrite exp_zero_one.
  rewrite inv_of_mul, raw_assoc by auto. apply same_mul; auto; [apply sized_mul; auto | apply sized_one|]. rewrite <- (inv_l raw Hk x) by auto. apply same_mul; auto. apply same_sym; auto.
Qed.
Lemma moved_between s a b da db : good s -> good a -> good b -> a ** s ~~ b -> length da = n ->
  exists q, sized_pose raw q /\ between_residual raw s (lie_retract raw a da) (lie_retract raw b db) = lg_log raw q /\
    q ~~ (lg_exp raw db)^- ** lg_exp raw (mvec (lg_adj raw (s^-)) da).
Proof.
  intros (Ls & Us) (La & Ua) (Lb & Ub) H Hda. exists (((a ** lg_exp raw da)^- ** (b ** lg_exp raw db))^- ** s). split; [apply sized_mul; auto|]. split; [reflexivity|].
  pose proof (good_exp da) as Ea. pose proof (good_exp db) as Eb.
  destruct Ea as (Lea & Uea). destruct Eb as (Leb & Ueb). set (ea := lg_exp raw da) in *. set (eb := lg_exp raw db) in *.
  assert (Ux : unit_pose raw (a ** ea)) by (apply unit_mul; auto). assert (Uy : unit_pose raw (b ** eb)) by (apply unit_mul; auto).
  rewrite inv_of_mul by (auto; apply unit_inv; auto). rewrite inv_of_inv by (auto; apply sized_mul; auto). rewrite (inv_of_mul raw Hk b eb) by auto.
  rewrite !raw_assoc by auto. apply same_mul; auto; [apply sized_mul; auto | apply k_sized_exp; auto|].
  rewrite k_exp_adj by (auto; try (apply sized_inv; auto); apply unit_inv; auto). rewrite inv_of_inv by auto. fold ea. rewrite raw_assoc by auto.
  apply same_trans with ((a ** s)^- ** (a ** (ea ** s))).
  - apply same_mul_l; auto; [apply sized_inv; auto | apply sized_inv; auto|]. apply same_inv; auto; [apply sized_mul; auto|]. apply same_sym; auto.
  - rewrite inv_of_mul by auto. rewrite raw_assoc by auto. rewrite cancel_left; auto; [apply same_refl | apply sized_mul; auto].
Qed.
Lemma adj_of_s s a b : good s -> good a -> good b -> a ** s ~~ b -> lg_adj raw ((a^- ** b)^-) = lg_adj raw (s^-).
Proof.
  intros (Ls & Us) (La & Ua) (Lb & Ub) H. assert (H' : a^- ** b ~~ s) by (apply between_same; auto). destruct Hk as [Hp|Hs].
  - f_equal. f_equal. apply (planar_same raw); auto.
  - apply same_adj; auto; try (apply sized_inv; auto). apply same_inv; auto. apply sized_mul; auto.
Qed.

Lemma prior_near mu z : good mu -> good z -> z ~~ mu -> exists K d, 0 <= K /\ 0 < d /\ forall e r, length e = n -> vnorm e <= r -> r <= d ->
  vnorm (vsub (prior_residual raw mu (lie_retract raw z e)) (vneg e)) <= K * (r * r).
Proof.
  intros Gm Gz H. destruct (near_log raw Hk) as (C & d & HC & Hd & HN). destruct (near_exp_log raw Hk) as (d' & Hd' & HL).
  exists C, (Rmin d d'). split; auto. split; [apply Rmin_pos; auto|]. intros e r Le He Hr. pose proof (norm_pos e) as Pe.
  assert (Hr1 : r <= d) by (eapply Rle_trans; [exact Hr | apply Rmin_l]). assert (Hr2 : r <= d') by (eapply Rle_trans; [exact Hr | apply Rmin_r]).
  assert (Lz : length (vzero n : list R) = n) by apply vzero_length. pose proof (zero_norm n) as Z0.
  destruct (moved_prior mu z e Gm Gz H) as (q & Lq & -> & Hq). rewrite (same_logs q e (vzero n) d' HL Lq Hq) by (auto; lra).
  replace (vneg e) with (vsub (vzero n) e); [apply HN; auto; lra|]. apply (nth_ext' _ _ 0); [rewrite vneg_length, vsub_length; congruence|].
  intros i _. rewrite nth_vneg, nth_vsub by congruence. unfold vzero. rewrite nth_repeat. rn. ring.
Qed.
Lemma between_near s a b : good s -> good a -> good b -> a ** s ~~ b -> exists K d, 0 <= K /\ 0 < d /\ forall ea eb r, length ea = n -> length eb = n -> vnorm ea <= r -> vnorm eb <= r -> r <= d ->
  let A := lg_adj raw (((lie_retract raw a ea)^- ** lie_retract raw b eb)^-) in
  vnorm (vsub (between_residual raw s (lie_retract raw a ea) (lie_retract raw b eb)) (vsub (mvec A ea) eb)) <= K * (r * r) /\
  forall v, length v = n -> vnorm (vsub (mvec A v) (mvec (lg_adj raw ((a^- ** b)^-)) v)) <= K * r * vnorm v.
Proof.
  intros Gs Ga Gb H. destruct (near_log raw Hk) as (C & d & HC & Hd & HN). destruct (near_exp_log raw Hk) as (d' & Hd' & HL). destruct (near_adj raw Hk) as (Ca & da & HCa & Hda & HA).
  set (B := lg_adj raw ((a^- ** b)^-)). pose proof (k_adj_shape raw Hk ((a^- ** b)^-)) as (_ & HB). destruct (mvec_bound n B HB) as (c & Hc & Hcb).
  set (c1 := 1 + c). set (K2 := Ca * c * (1 + Ca) + c * Ca). assert (HK2 : 0 <= K2) by (unfold K2; apply Rplus_le_le_0_compat; repeat apply Rmult_le_pos; lra).
  exists (C * (c1 * c1) + K2), (Rmin (Rmin 1 da) (Rmin (d / c1) (d' / c1))). assert (Hc1 : 1 <= c1) by (unfold c1; lra).
  assert (0 < d / c1) by (apply Rdiv_lt_0_compat; lra). assert (0 < d' / c1) by (apply Rdiv_lt_0_compat; lra).
  assert (HCc : 0 <= C * (c1 * c1)) by (apply Rmult_le_pos; nra). split; [lra|]. split; [repeat apply Rmin_pos; auto; lra|].
  intros ea eb r La Lb Hea Heb Hr A.
  assert (R1 : r <= 1) by (eapply Rle_trans; [exact Hr|]; eapply Rle_trans; [apply Rmin_l|apply Rmin_l]).
  assert (R2 : r <= da) by (eapply Rle_trans; [exact Hr|]; eapply Rle_trans; [apply Rmin_l|apply Rmin_r]).
  assert (R3 : r <= d / c1) by (eapply Rle_trans; [exact Hr|]; eapply Rle_trans; [apply Rmin_r|apply Rmin_l]).
  assert (R4 : r <= d' / c1) by (eapply Rle_trans; [exact Hr|]; eapply Rle_trans; [apply Rmin_r|apply Rmin_r]).
  assert (R3' : c1 * r <= d) by (apply (Rmult_le_compat_l c1) in R3; [|lra]; replace (c1 * (d / c1)) with d in R3 by (field; lra); auto).
  assert (R4' : c1 * r <= d') by (apply (Rmult_le_compat_l c1) in R4; [|lra]; replace (c1 * (d' / c1)) with d' in R4 by (field; lra); auto).
  pose proof (norm_pos ea) as Pa. pose proof (norm_pos eb) as Pb. assert (Pr : 0 <= r) by lra.
  (* the Jacobian *)
  pose proof (good_exp ea) as Gea. pose proof (good_exp eb) as Geb.
  assert (EA : forall v, length v = n -> mvec A v = mvec (lg_adj raw (lg_exp raw (vneg eb))) (mvec B (mvec (lg_adj raw (lg_exp raw ea)) v))).
  { intros v Lv. assert (E : ((lie_retract raw a ea)^- ** lie_retract raw b eb)^- = (lg_exp raw eb)^- ** ((a^- ** b)^- ** lg_exp raw ea)).
    { unfold lie_retract, rplus. destruct Ga as (La' & Ua). destruct Gb as (Lb' & Ub). destruct Gea as (Lea & Uea). destruct Geb as (Leb & Ueb).
      rewrite !inv_of_mul by (auto; try apply unit_inv; auto; apply unit_mul; auto).
      rewrite !inv_of_inv by (auto; try apply unit_inv; auto; try apply unit_mul; auto; try apply sized_inv; auto; apply sized_mul; auto). rewrite !raw_assoc by auto. reflexivity. }
    unfold A. rewrite E. rewrite (k_exp_neg raw Hk eb Lb). rewrite k_adj_mul by (auto; apply good_inv; auto). f_equal. apply k_adj_mul; auto. apply good_inv, good_mul; auto. apply good_inv; auto. }
  assert (Hneg : vnorm (vneg eb) <= da) by (rewrite norm_neg; lra).
  assert (J : forall v, length v = n -> vnorm (vsub (mvec A v) (mvec B v)) <= K2 * r * vnorm v).
  { intros v Lv. rewrite EA by auto. pose proof (norm_pos v) as Pv. set (w := mvec (lg_adj raw (lg_exp raw ea)) v). assert (Lw : length w = n) by (apply k_adj_length; auto).
    pose proof (HA ea v Lv ltac:(lra)) as G1. fold w in G1. assert (LB : forall y, length (mvec B y) = n) by (intros; apply k_adj_length; auto).
    pose proof (HA (vneg eb) (mvec B w) (LB w) Hneg) as G2. rewrite norm_neg in G2.
    assert (G1' : vnorm (vsub w v) <= Ca * r * vnorm v) by (eapply Rle_trans; [exact G1|]; apply Rmult_le_compat_r; auto; apply Rmult_le_compat_l; auto).
    assert (Hw : vnorm w <= (1 + Ca) * vnorm v).
    { eapply Rle_trans; [apply (norm_split w v); congruence|]. assert (Ca * r * vnorm v <= Ca * 1 * vnorm v) by (apply Rmult_le_compat_r; auto; apply Rmult_le_compat_l; auto). lra. }
    assert (HBw : vnorm (mvec B w) <= c * ((1 + Ca) * vnorm v)) by (eapply Rle_trans; [apply Hcb; auto|]; apply Rmult_le_compat_l; auto).
    assert (G2' : vnorm (vsub (mvec (lg_adj raw (lg_exp raw (vneg eb))) (mvec B w)) (mvec B w)) <= Ca * r * (c * ((1 + Ca) * vnorm v))).
    { eapply Rle_trans; [exact G2|]. apply Rmult_le_compat; auto; [apply Rmult_le_pos; auto | apply norm_pos | apply Rmult_le_compat_l; auto]. }
    eapply Rle_trans; [apply (norm_mid _ (mvec B w)); rewrite ?LB; auto; apply k_adj_length; auto|].
    rewrite <- mvec_sub by congruence. pose proof (Hcb (vsub w v) ltac:(rewrite vsub_length; congruence)) as H3.
    assert (c * vnorm (vsub w v) <= c * (Ca * r * vnorm v)) by (apply Rmult_le_compat_l; auto). unfold K2. lra. }
  split.
  - assert (Lx : length (mvec (lg_adj raw (s^-)) ea) = n) by (apply k_adj_length; auto). assert (EB : lg_adj raw (s^-) = B) by (symmetry; apply adj_of_s; auto).
    destruct (moved_between s a b ea eb Gs Ga Gb H La) as (q & Lq & -> & Hq).
    assert (Hx : vnorm (mvec (lg_adj raw (s^-)) ea) <= c1 * r). { rewrite EB. eapply Rle_trans; [apply Hcb; auto|]. assert (c * vnorm ea <= c * r) by (apply Rmult_le_compat_l; auto). unfold c1. lra. }
    assert (Hb' : vnorm eb <= c1 * r) by (unfold c1; assert (0 <= c * r) by (apply Rmult_le_pos; auto); lra).
    rewrite (same_logs q eb (mvec (lg_adj raw (s^-)) ea) d' HL Lq Hq) by (auto; lra).
    pose proof (HN eb (mvec (lg_adj raw (s^-)) ea) (c1 * r) Lb Lx Hb' Hx R3') as G1. set (lq := lg_log raw ((lg_exp raw eb)^- ** lg_exp raw (mvec (lg_adj raw (s^-)) ea))) in *.
    assert (Ll : length lq = n) by (apply k_log_length; auto). rewrite EB in G1. assert (LB : length (mvec B ea) = n) by (apply k_adj_length; auto). assert (LA : length (mvec A ea) = n) by (apply k_adj_length; auto).
    eapply Rle_trans; [apply (norm_mid lq (vsub (mvec B ea) eb)); rewrite !vsub_length; congruence|].
    assert (E2 : vsub (vsub (mvec B ea) eb) (vsub (mvec A ea) eb) = vsub (mvec B ea) (mvec A ea)).
    { apply (nth_ext' _ _ 0); [rewrite !vsub_length; rewrite ?vsub_length; congruence|]. intros i _. rewrite !nth_vsub by (rewrite ?vsub_length; congruence). ring. }
    rewrite E2, (norm_flip (mvec B ea) (mvec A ea)) by (rewrite LB; auto). specialize (J ea La).
    assert (K2 * r * vnorm ea <= K2 * r * r) by (apply Rmult_le_compat_l; auto; apply Rmult_le_pos; auto). replace ((C * (c1 * c1) + K2) * (r * r)) with (C * (c1 * r * (c1 * r)) + K2 * r * r) by ring. lra.
  - intros v Lv. eapply Rle_trans; [apply J; auto|]. apply Rmult_le_compat_r; [apply norm_pos|]. apply Rmult_le_compat_r; auto. lra.
Qed.

(* two displacements in a row *)
Lemma compose_near : exists K d, 0 <= K /\ 0 < d /\ forall z e xi r, length e = n -> length xi = n -> vnorm e <= r -> vnorm xi <= r -> r <= d ->
  let e' := lg_log raw (lg_exp raw e ** lg_exp raw xi) in length e' = n /\ lie_retract raw (lie_retract raw z e) xi = lie_retract raw z e' /\ vnorm (vsub e' (vadd e xi)) <= K * (r * r).
Proof.
  destruct (near_log raw Hk) as (C & d & HC & Hd & HN). destruct (near_exp_log raw Hk) as (d' & Hd' & HL).
  exists C, (Rmin d d'). split; auto. split; [apply Rmin_pos; auto|]. intros z e xi r Le Lx He Hx Hr.
  assert (Hr1 : r <= d) by (eapply Rle_trans; [exact Hr | apply Rmin_l]). assert (Hr2 : r <= d') by (eapply Rle_trans; [exact Hr | apply Rmin_r]).
  assert (Ln : length (vneg e) = n) by (rewrite vneg_length; auto). assert (En : vnorm (vneg e) = vnorm e) by apply norm_neg.
  destruct (HL (vneg e) xi Ln Lx ltac:(lra) ltac:(lra)) as (E & _). pose proof (HN (vneg e) xi r Ln Lx ltac:(lra) Hx Hr1) as H.
  rewrite k_exp_neg in E, H by auto. destruct (good_exp e) as (Lg & Ug). rewrite inv_of_inv in E, H by auto.
  cbv zeta. split; [apply k_log_length; auto|]. split.
  - unfold lie_retract, rplus. rewrite E, raw_assoc by auto. reflexivity.
  - replace (vadd e xi) with (vsub xi (vneg e)); auto. apply (nth_ext' _ _ 0); [rewrite vsub_length, vadd_length; congruence|].
    intros i _. rewrite nth_vsub, nth_vadd, nth_vneg by congruence. ring.
Qed.
End Group.
