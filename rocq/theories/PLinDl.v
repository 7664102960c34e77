(* Dogleg on linear least-squares problems. *)
From Coq Require Import List Arith Bool ZArith Lia Permutation Reals Lra Psatz.
From Verif Require Import Num NumR Py Arr MLayout MAssign MNoise MSparse MFactor MGraph MLinear MSolver SpecLayout SpecTree SpecAssign SpecGraph SpecSparse SpecDeriv SpecSolver SpecOrder SpecInv SpecLin.
From Verif Require Import PBase PLayout PAssign PAssign2 PStack PGraph PGraph2 PGraph3 PGraph4 PVec PSparse PLinear PCg PJac PGraph5 PLayout2 POrder PHold PExGraph PSolver PSolver2 PInv PTotal PSolverR PLin PDescent.
Import ListNotations.
Local Open Scope R_scope.

(* ---- steps do not lead away from a solution ---- *)
Lemma closer (e d : list R) : length e = length d -> (sumsq (vsub e d) <= sumsq e <-> sumsq d <= 2 * vdot e d).
Proof. intros H. rewrite sumsq_sub by auto. lra. Qed.
Lemma closer_part e a t : length e = length a -> 0 <= t <= 1 -> sumsq (vsub e a) <= sumsq e -> sumsq (vsub e (vscale t a)) <= sumsq e.
Proof.
  intros Hl Ht H. apply closer in H; auto. apply closer; [rewrite vscale_length; auto|]. rewrite sumsq_scale, vdot_scale_r. pose proof (sumsq_nonneg a) as H0.
  assert (t * (t * sumsq a) <= t * (2 * vdot e a)). { apply Rmult_le_compat_l; [lra|]. assert (t * sumsq a <= 1 * sumsq a) by (apply Rmult_le_compat_r; lra). lra. }
  lra.
Qed.
Lemma closer_between e a b t : length e = length a -> length e = length b -> 0 <= t <= 1 ->
  sumsq (vsub e a) <= sumsq e -> sumsq (vsub e b) <= sumsq e -> sumsq (vsub e (vadd a (vscale t (vsub b a)))) <= sumsq e.
Proof.
  intros Ha Hb Ht H1 H2. apply closer in H1; auto. apply closer in H2; auto.
  assert (Hw : length (vsub b a) = length a) by (rewrite vsub_length; lia).
  apply closer; [rewrite vadd_length; rewrite ?vscale_length; lia|].
  rewrite sumsq_add, sumsq_scale by (rewrite vscale_length; lia). rewrite vdot_add_r by (rewrite vscale_length; lia). rewrite !vdot_scale_r, !vdot_sub_r, sumsq_sub by lia.
  rewrite <- (sumsq_dot a). pose proof (sumsq_nonneg (vsub b a)) as H3. rewrite sumsq_sub in H3 by lia. rewrite (vdot_comm b a) in *.
  set (x := vdot a b) in *. set (sa := sumsq a) in *. set (sb := sumsq b) in *. set (ea := vdot e a) in *. set (eb := vdot e b) in *.
  assert (G1 : 0 <= (1 - t) * (2 * ea - sa)) by (apply Rmult_le_pos; lra). assert (G2 : 0 <= t * (2 * eb - sb)) by (apply Rmult_le_pos; lra).
  assert (G3 : 0 <= t * (1 - t) * (sb - 2 * x + sa)) by (repeat apply Rmult_le_pos; lra). nra.
Qed.

Section Fejer.
Variable A : coo R.
Hypothesis HA : coo_ok A.
Let n := snd (m_shape A).
Variables (rhs e : list R).
Let g := mapply (transpose A) rhs.
Hypothesis Hr : length rhs = fst (m_shape A).
Hypothesis He : length e = n.
Hypothesis Hg : forall y, length y = n -> vdot y g = vdot (mapply A y) (mapply A e).

Lemma fejer_cauchy : g <> vzero n -> sumsq (vsub e (vscale (sumsq g / sumsq (mapply A g)) g)) <= sumsq e.
Proof.
  intros Hnz. destruct (steepest_defined A rhs HA Hr Hnz) as (Hp & _). fold g in Hp. assert (Hlg : length g = n) by apply mapply_length.
  set (p := sumsq (mapply A g)) in *. apply closer; [rewrite vscale_length; lia|]. rewrite sumsq_scale, vdot_scale_r.
  rewrite (Hg e He), <- sumsq_dot. pose proof (Hg g Hlg) as Hgg. rewrite <- sumsq_dot in Hgg.
  pose proof (cauchy_schwarz (mapply A g) (mapply A e) ltac:(rewrite !mapply_length; auto)) as HC. rewrite <- Hgg in HC. fold p in HC.
  pose proof (sumsq_nonneg (mapply A e)) as H0. set (q := sumsq (mapply A e)) in *. set (s := sumsq g) in *.
  assert (Hs0 : 0 <= s) by apply sumsq_nonneg.
  assert (H1 : s / p * s <= q). { apply (Rmult_le_reg_r p); auto. replace (s / p * s * p) with (s * s) by (field; lra). lra. }
  assert (Hsp : 0 <= s / p) by (unfold Rdiv; apply Rmult_le_pos; auto; left; apply Rinv_0_lt_compat; auto).
  assert (s / p * (s / p * s) <= s / p * q) by (apply Rmult_le_compat_l; auto). assert (0 <= s / p * q) by (apply Rmult_le_pos; auto). lra.
Qed.

Lemma fejer_dogleg mu gn radius : 0 < mu -> 0 < radius -> normal_ok A mu g gn -> sumsq (vsub e gn) <= sumsq e ->
  sumsq (vsub e (dogleg_step_of g (mapply A g) gn radius)) <= sumsq e /\
  (radius < vnorm gn -> vnorm (dogleg_step_of g (mapply A g) gn radius) = radius) /\
  (vnorm gn <= radius -> dogleg_step_of g (mapply A g) gn radius = gn).
Proof.
  intros Hmu Hrad Hn Hgn. pose proof Hn as (Hlgn & _). fold n in Hlgn. assert (Hlg : length g = n) by apply mapply_length.
  destruct (Rle_lt_dec (vnorm gn) radius) as [Hc|Hc].
  { assert (Ed : dogleg_step_of g (mapply A g) gn radius = gn).
    { unfold dogleg_step_of. rn. rewrite (proj2 (Rleb_ok _ _) Hc). auto. }
    rewrite Ed. split; auto. split; auto. lra. }
  assert (Hnz : g <> vzero n).
  { intros Hz. assert (gn = vzero n). { apply (proj1 (normal_descent A mu rhs gn HA Hmu Hr Hn)). exact Hz. }
    subst gn. rewrite (vnorm_eq _ 0) in Hc; [lra | lra|]. rewrite (proj2 (PVec.sumsq_zero (vzero n))); [ring | rewrite vzero_length; auto]. }
  destruct (steepest_defined A rhs HA Hr Hnz) as (Hp & _). fold g in Hp.
  destruct (dogleg_step_ok g (mapply A g) gn radius Hrad ltac:(lia) ltac:(left; lra)) as (_ & _ & N & C2 & C3).
  split; [|split; [auto | lra]]. pose proof (fejer_cauchy Hnz) as Hca. set (a := vscale (sumsq g / sumsq (mapply A g)) g) in *.
  assert (Hla : length a = n) by (unfold a; rewrite vscale_length; auto).
  destruct (Rle_lt_dec radius (vnorm a)) as [Hc2|Hc2].
  - rewrite (C2 Hc Hc2). apply closer_part; auto; [lia|]. split; [unfold Rdiv; apply Rmult_le_pos; [lra | left; apply Rinv_0_lt_compat; lra]|].
    apply (Rmult_le_reg_r (vnorm a)); [lra|]. replace (radius / vnorm a * vnorm a) with radius by (field; lra). lra.
  - destruct (C3 Hc Hc2) as (bt & Hbt & -> & _). apply closer_between; auto; try lia. lra.
Qed.
End Fejer.

Lemma flat p q : 0 <= q -> (forall t, 0 <= 2 * t * p + t * t * q) -> p = 0.
Proof.
  intros Hq H. destruct (Req_dec p 0) as [|Hp]; auto. exfalso.
  assert (Hs : 0 < q + 1) by lra. specialize (H (- p / (q + 1))).
  replace (2 * (- p / (q + 1)) * p + - p / (q + 1) * (- p / (q + 1)) * q) with (- (p * p * (q + 2) / ((q + 1) * (q + 1)))) in H by (field; lra).
  assert (0 < p * p * (q + 2) / ((q + 1) * (q + 1))).
  { apply Rmult_lt_0_compat; [|apply Rinv_0_lt_compat; nra]. apply Rmult_lt_0_compat; [nra | lra]. }
  lra.
Qed.
Lemma vadd_sub_add (r u v : list R) t : length r = length u -> length r = length v -> vadd r (vadd u (vscale t v)) = vadd (vadd r u) (vscale t v).
Proof.
  revert u v. induction r as [|x r IH]; intros [|y u] [|z v] H1 H2; try discriminate; auto. rewrite vscale_cons, !vadd_cons, IH by (simpl in *; lia). f_equal. lra.
Qed.
Lemma sub_add (x z : list R) d : length x = length z -> length d = length x -> vsub z (vadd x d) = vsub (vsub z x) d.
Proof.
  revert z d. induction x as [|y x IH]; intros [|w z] [|v d] H1 H2; try discriminate; auto. rewrite vadd_cons, !vsub_cons, IH by (simpl in *; lia). f_equal. lra.
Qed.
Lemma add_sub (x d : list R) : length d = length x -> vsub (vadd x d) x = d.
Proof.
  revert d. induction x as [|y x IH]; intros [|v d] H; try discriminate; auto. rewrite vadd_cons, vsub_cons, IH by (simpl in *; lia). f_equal. lra.
Qed.

(* ---- a minimum exists ---- *)
Lemma project (A : coo R) (HA : coo_ok A) (ys : list (list R)) : (forall y, In y ys -> length y = snd (m_shape A)) ->
  forall r, length r = fst (m_shape A) -> exists x, length x = snd (m_shape A) /\
    (forall v, length v = fst (m_shape A) -> (forall y, In y ys -> vdot (mapply A y) v = 0) -> vdot (mapply A x) v = 0) /\
    forall y, In y ys -> vdot (mapply A y) (vadd r (mapply A x)) = 0.
Proof.
  assert (LA : forall v, length (mapply A v) = fst (m_shape A)) by (intros; apply mapply_length).
  induction ys as [|u ys IH]; intros Hl r Hr.
  - exists (vzero (snd (m_shape A))). rewrite vzero_length. split; auto. split; [|intros y []]. intros v Hv _.
    rewrite (mapply_adjoint A) by (auto; apply vzero_length). apply vdot_zero_l.
  - assert (Hu : length u = snd (m_shape A)) by (apply Hl; left; auto). assert (Hys : forall y, In y ys -> length y = snd (m_shape A)) by (intros; apply Hl; right; auto).
    destruct (IH Hys r Hr) as (x0 & L0 & S0 & O0). destruct (IH Hys (mapply A u) (LA u)) as (x1 & L1 & S1 & O1).
    set (w := vadd u x1). assert (Lw : length w = snd (m_shape A)) by (unfold w; rewrite vadd_length; lia).
    assert (Aw : mapply A w = vadd (mapply A u) (mapply A x1)) by (apply mapply_add; auto). rewrite <- Aw in O1.
    set (r0 := vadd r (mapply A x0)) in *. assert (Lr0 : length r0 = fst (m_shape A)) by (unfold r0; rewrite vadd_length; rewrite ?LA; auto).
    set (t := - (vdot (mapply A w) r0 / sumsq (mapply A w))). exists (vadd x0 (vscale t w)).
    assert (Lx : length (vadd x0 (vscale t w)) = snd (m_shape A)) by (rewrite vadd_length; rewrite ?vscale_length; lia). split; auto.
    assert (Ax : mapply A (vadd x0 (vscale t w)) = vadd (mapply A x0) (vscale t (mapply A w))) by (rewrite mapply_add, mapply_scale; auto; rewrite vscale_length; auto). rewrite Ax. split.
    + intros v Hv Hy. rewrite vdot_add_l by (rewrite vscale_length, !LA; auto). rewrite vdot_scale_l, Aw, vdot_add_l by (rewrite !LA; auto).
      rewrite (Hy u (or_introl eq_refl)), (S0 v Hv), (S1 v Hv) by (intros; apply Hy; right; auto). lra.
    + rewrite vadd_sub_add by (rewrite LA; auto). fold r0.
      assert (Oys : forall y, In y ys -> vdot (mapply A y) (vadd r0 (vscale t (mapply A w))) = 0).
      { intros y Hy. rewrite vdot_add_r by (rewrite vscale_length, LA; auto). rewrite vdot_scale_r, (O0 y Hy), (O1 y Hy). lra. }
      intros y [<-|Hy]; [|apply Oys; auto].
      assert (Lv : length (vadd r0 (vscale t (mapply A w))) = fst (m_shape A)) by (rewrite vadd_length; rewrite ?vscale_length, ?LA; auto).
      assert (Hw0 : vdot (mapply A w) (vadd r0 (vscale t (mapply A w))) = 0).
      { rewrite vdot_add_r by (rewrite vscale_length, LA; auto). rewrite vdot_scale_r, <- sumsq_dot.
        destruct (Req_dec (sumsq (mapply A w)) 0) as [H0|H0]; [|unfold t; field; auto].
        apply sumsq_zero in H0. rewrite LA in H0. rewrite H0, vdot_zero_l, sumsq_dot, vdot_zero_l. lra. }
      rewrite Aw, vdot_add_l in Hw0 by (rewrite ?vscale_length, ?LA; auto). rewrite <- Aw in Hw0.
      rewrite (S1 _ Lv Oys) in Hw0. lra.
Qed.

Lemma least_squares (A : coo R) r : coo_ok A -> length r = fst (m_shape A) -> exists x, length x = snd (m_shape A) /\
  forall y, length y = snd (m_shape A) -> sumsq (vadd r (mapply A x)) <= sumsq (vadd r (mapply A y)).
Proof.
  intros HA Hr. destruct (project A HA (map (unitv (snd (m_shape A))) (seq 0 (snd (m_shape A)))) ltac:(intros y Hy; apply in_map_iff in Hy; destruct Hy as (i & <- & _); apply unitv_length) r Hr) as (x & Hx & _ & Ho).
  assert (LA : forall v, length (mapply A v) = fst (m_shape A)) by (intros; apply mapply_length).
  exists x. split; auto. set (v := vadd r (mapply A x)) in *. assert (Hv : length v = fst (m_shape A)) by (unfold v; rewrite vadd_length; rewrite ?LA; auto).
  assert (Hz : mapply (transpose A) v = vzero (snd (m_shape A))).
  { apply (nth_ext' _ _ 0); [rewrite mapply_length, vzero_length; auto|]. intros i Hi. rewrite mapply_length in Hi. cbn in Hi.
    rewrite <- (vdot_unitv (snd (m_shape A)) i), <- (vdot_unitv (snd (m_shape A)) i (vzero _)) by (auto; rewrite ?vzero_length, ?mapply_length; auto).
    rewrite vdot_zero_r, <- mapply_adjoint; auto; [|apply unitv_length]. apply Ho. apply in_map. apply in_seq. lia. }
  intros y Hy. assert (Hvy : vadd r (mapply A y) = vadd v (mapply A (vsub y x))).
  { unfold v. assert (Exy : y = vadd x (vsub y x)).
    { apply (vec_ext (snd (m_shape A))); auto; [rewrite vadd_length; rewrite ?vsub_length; lia|]. intros u Hu. rewrite vdot_add_r by (rewrite vsub_length; lia). rewrite vdot_sub_r by lia. lra. }
    rewrite Exy at 1. rewrite mapply_add by (auto; rewrite vsub_length; lia).
    apply (vec_ext (fst (m_shape A))); try (rewrite vadd_length; rewrite ?vadd_length; rewrite ?LA; auto; fail).
    intros u Hu. rewrite !vdot_add_r by (rewrite ?vadd_length; rewrite ?LA; auto). lra. }
  rewrite Hvy, (sumsq_add v) by (rewrite LA; auto). rewrite vdot_comm, mapply_adjoint, Hz, vdot_zero_r by (auto; rewrite vsub_length; lia).
  pose proof (sumsq_nonneg (mapply A (vsub y x))). lra.
Qed.

Section Lin.
Variable E : env R.
Let C := e_cls E.
Variable fs : list (factor R).
Variable g : graph R.
Hypothesis LP : linear_problem E fs.
Hypothesis CO : classes_ok C.
Hypothesis Hok : forall f, In f fs -> factor_ok f.
Hypothesis Hg : is_graph E fs g.
Hypothesis Hne : fs <> [].
Hypothesis Hrd : total residual_dim fs <> 0%nat.
Hypothesis Hws : well_shaped E fs.
Let L := graph_layout E fs true.
Let n := l_dim L.
Let m := total residual_dim fs.
Notation fresh := (fresh E fs g).

Definition dist2 (z a : assign R) : R := sumsq (vsub (as_storage z) (as_storage a)).

(* moving by any vector *)
Lemma lin_move s A x : fresh s -> compute_whitened_residual_jacobian E g (s_assign s) (s_res s) = Ok A -> length x = n ->
  exists a' c' r' val', manifold_retract C (s_assign s) (mkAssign x L) = Ok a' /\ compute_cost E g a' = Ok (c', r') /\ holds E fs a' val' /\
    c' = sumsq r' /\ r' = vadd (s_res s) (mapply A x) /\ as_storage a' = vadd (as_storage (s_assign s)) x.
Proof.
  intros Hf EA Hx. destruct (fresh_shapes E fs g LP CO Hok Hg Hne Hrd Hws s A Hf EA) as (HA & Hsh & Hm). destruct Hf as (Hcur & val & Ha).
  pose proof (cost_parts E g _ _ _ Hcur) as (Hw & Hcost). pose proof (held_length E fs LP CO _ _ Ha : _ = n) as Hla.
  destruct (lin_retract E fs LP CO Hws (s_assign s) val x Ha Hx) as (a' & val' & Er & Ha' & Hst).
  destruct (cost_total E CO fs g Hok Hg Hne Hws a' (ex_intro _ val' Ha')) as (c' & r' & Ec' & Hl').
  pose proof (cost_parts E g _ _ _ Ec') as (Hw' & Hcost').
  destruct (lin_residual E fs g LP CO Hok Hg Hne Hrd Hws (s_assign s) val a' val' _ _ (s_res s) A Ha Ha' Hm Hw Hw' EA) as (_ & _ & _ & Hr').
  exists a', c', r', val'. do 4 (split; [auto|]). split; auto. rewrite Hr', Hst. do 2 f_equal.
  clear - Hla Hx. assert (H : length (as_storage (s_assign s)) = length x) by (rewrite Hx; exact Hla). revert H. generalize (as_storage (s_assign s)). clear. intros l. revert x.
  induction l as [|y l IH]; intros [|z x]; simpl; intros H; try discriminate; auto. rewrite vadd_cons, vsub_cons. f_equal; [lra | apply IH; auto].
Qed.


Section Min.
Variables (z : assign R) (valz : var -> pytree R) (cz : R) (rz : list R).
Hypothesis Hz : holds E fs z valz.
Hypothesis Ez : compute_cost E g z = Ok (cz, rz).
Hypothesis Hmin : forall b valb cb rb, holds E fs b valb -> compute_cost E g b = Ok (cb, rb) -> cz <= cb.

(* the gradient, measured from the minimum *)
Lemma min_gradient s A : fresh s -> compute_whitened_residual_jacobian E g (s_assign s) (s_res s) = Ok A ->
  let e := vsub (as_storage z) (as_storage (s_assign s)) in
  length e = n /\ cz = sumsq (vadd (s_res s) (mapply A e)) /\
  forall y, length y = n -> - vdot (mapply A y) (s_res s) = vdot (mapply A y) (mapply A e).
Proof.
  intros Hf EA e. destruct (fresh_shapes E fs g LP CO Hok Hg Hne Hrd Hws s A Hf EA) as (HA & Hsh & Hm). pose proof Hf as (Hcur & val & Ha).
  pose proof (held_length E fs LP CO _ _ Ha : _ = n) as Hla. pose proof (held_length E fs LP CO _ _ Hz : _ = n) as Hlz.
  assert (He : length e = n) by (unfold e; rewrite vsub_length; congruence).
  pose proof (cost_parts E g _ _ _ Hcur) as (Hw & Hcost). pose proof (cost_parts E g _ _ _ Ez) as (Hwz & Hcz).
  destruct (lin_residual E fs g LP CO Hok Hg Hne Hrd Hws (s_assign s) val z valz _ _ (s_res s) A Ha Hz Hm Hw Hwz EA) as (_ & _ & _ & Hrz). fold e in Hrz.
  split; auto. split; [congruence|]. intros y Hy.
  assert (LA : forall v, length (mapply A v) = m) by (intros v; rewrite mapply_length, Hsh; auto).
  assert (Hp : vdot (mapply A y) (vadd (s_res s) (mapply A e)) = 0).
  { apply (flat _ (sumsq (mapply A y))); [apply sumsq_nonneg|]. intros t.
    assert (Hd : length (vadd e (vscale t y)) = n) by (rewrite vadd_length; rewrite ?vscale_length; congruence).
    destruct (lin_move s A _ Hf EA Hd) as (a' & c' & r' & val' & _ & Ec & Hh & Hc' & Hr' & _).
    pose proof (Hmin _ _ _ _ Hh Ec) as Hle. rewrite Hcz, Hc', Hr' in Hle.
    rewrite mapply_add, mapply_scale in Hle by (rewrite ?vscale_length, ?Hsh; cbn; auto; congruence).
    rewrite vadd_sub_add in Hle by (rewrite LA; auto).
    rewrite (sumsq_add (vadd (s_res s) (mapply A e))) in Hle by (rewrite vscale_length, LA, vadd_length; rewrite ?LA; auto).
    rewrite sumsq_scale, vdot_scale_r, <- Hrz in Hle. rewrite <- Hrz. rewrite (vdot_comm (mapply A y)). lra. }
  rewrite vdot_add_r in Hp by (rewrite ?LA; auto). lra.
Qed.

Lemma dl_lin cfg s s' : dl_quality_min cfg <= 1 -> fresh s -> 0 < s_extra s -> dl_step E cfg cholmod_solve g s = Ok s' ->
  fresh s' /\ 0 < s_extra s' /\ s_cost s' <= s_cost s /\ dist2 z (s_assign s') <= dist2 z (s_assign s) /\
  (s_cost s <= cz \/
   (s_extra s <= s_extra s' /\ forall b valb cb rb, holds E fs b valb -> compute_cost E g b = Ok (cb, rb) ->
      s_cost s' + 1 / 100000 * dist2 (s_assign s') (s_assign s) + 1 / 100000 * dist2 b (s_assign s') <= cb + 1 / 100000 * dist2 b (s_assign s)) \/
   (s_extra s * s_extra s < dist2 z (s_assign s) /\ s_extra s' = 3 * s_extra s)).
Proof.
  intros Hq Hf Hx H. destruct (dl_tr E _ _ _ _ _ H) as (A & ATb & gn & Asd & d & prop & c & r & q & Ht & Eb & Egn & Easd & Ed & Eex & _).
  destruct Ht as [EA Er Ec (Ad & EAd & Eq) Hacc Hrej Hres _].
  destruct (fresh_shapes E fs g LP CO Hok Hg Hne Hrd Hws s A Hf EA) as (HA & Hsh & Hm).
  assert (LA : forall v, length (mapply A v) = m) by (intros v; rewrite mapply_length, Hsh; auto).
  destruct (min_gradient s A Hf EA) as (He & Hcz & Hgr). set (e := vsub (as_storage z) (as_storage (s_assign s))) in *.
  assert (Hneg : length (vneg (s_res s)) = fst (m_shape A)) by (unfold vneg; rewrite map_length, Hsh; auto).
  destruct (lm_rhs E fs A (s_res s) ATb HA Hsh Hm Eb) as (Hlb & Hdot). fold n in Hlb.
  rewrite matmul_mapply in Eb by (auto using transpose_ok). injection Eb as Eb.
  assert (Hmu : 0 < n0 + Rlit 1 100000) by (unfold Rlit; rn; lra).
  destruct (cholmod_solve_ok A ATb n0 (s_iter s) HA Hmu) as (x & Ex & Hn); [rewrite Hsh; auto|]. rewrite Egn in Ex. injection Ex as <-.
  destruct (lin_step E fs g LP CO Hok Hg Hne Hrd Hws s A _ _ gn Hf EA Hdot Hn) as (a1 & c1 & r1 & val1 & _ & Ec1 & Hh1 & Hr1 & _ & _ & Hlgn & _ & (Hst1 & Hsub1) & Hz1).
  pose proof (Hmin _ _ _ _ Hh1 Ec1) as Hm1. pose proof Hz1 as Hall. specialize (Hz1 _ _ _ _ Hz Ez).
  replace (n0 + Rlit 1 100000) with (1 / 100000) in * by (rn; unfold Rlit; lra).
  rewrite matmul_mapply in Easd by (auto; rewrite Hsh; auto). injection Easd as <-.
  pose proof Hf as (Hcur & val & Ha). pose proof (held_length E fs LP CO _ _ Ha : _ = n) as Hla. pose proof (held_length E fs LP CO _ _ Hz : _ = n) as Hlz.
  rewrite Hst1, sub_add in Hz1 by (rewrite ?Hla, ?Hlz; auto). fold e in Hz1.
  pose proof (sumsq_nonneg gn) as Pgn. pose proof (sumsq_nonneg (vsub e gn)) as Peg.
  assert (Hfg : sumsq (vsub e gn) <= sumsq e) by lra. assert (Hge : sumsq gn <= sumsq e) by lra.
  pose proof (cost_parts E g _ _ _ Hcur) as (_ & Hcost).
  assert (Hgy : forall y, length y = snd (m_shape A) -> vdot y (mapply (transpose A) (vneg (s_res s))) = vdot (mapply A y) (mapply A e)).
  { intros y Hy. rewrite Hsh in Hy. rewrite Eb, Hdot, Hgr by auto. auto. }
  rewrite <- Eb in Hn. destruct (fejer_dogleg A HA (vneg (s_res s)) e Hneg ltac:(rewrite Hsh; auto) Hgy (1 / 100000) gn (s_extra s) ltac:(lra) Hx Hn Hfg) as (Fd & Ft & Fg).
  rewrite Eb in Fd, Ft, Fg. rewrite <- Ed in Fd, Ft, Fg.
  set (gg := mapply (transpose A) (vneg (s_res s))) in *.
  assert (Hlg : length gg = n) by (rewrite Eb; exact Hlb).
  assert (Hlgn' : length gn = n) by exact Hlgn.
  assert (Hld : length d = n).
  { rewrite Ed. unfold dogleg_step_of. rn. repeat match goal with |- context [if ?b then _ else _] => destruct b end; rewrite ?vadd_length; rewrite ?vscale_length; rewrite ?vsub_length; rewrite ?vscale_length; congruence. }
  destruct (lin_move s A d Hf EA Hld) as (a2 & c2 & r2 & val2 & Er2 & Ec2 & Hh2 & Hc2 & Hr2 & Hst2).
  rewrite (ig_local _ _ _ Hg) in Er. fold C L in Er. rewrite Er in Er2. injection Er2 as <-. rewrite Ec in Ec2. injection Ec2 as <- <-.
  assert (Hdz : dist2 z prop = sumsq (vsub e d)). { unfold dist2. rewrite Hst2, sub_add by congruence. auto. }
  rewrite matmul_mapply in EAd by (auto; rewrite Hsh; auto). injection EAd as <-. rnin Eq.
  assert (Hmc : c = s_cost s - (2 * vdot d gg - sumsq (mapply A d))).
  { pose proof (model_change A (vneg (s_res s)) HA Hneg d ltac:(rewrite Hsh; auto)) as Hmc. fold gg in Hmc.
    rewrite vsub_neg_add in Hmc by (rewrite LA; auto). rewrite vadd_comm, <- Hr2, <- Hc2 in Hmc. rewrite Hmc. rewrite Hcost. f_equal. rewrite !sumsq_dot, vdot_neg_r, vdot_comm, vdot_neg_r. lra. }
  rewrite vadd_comm, <- Hr2, <- Hc2 in Eq.
  destruct (list_eq_dec Req_EM_T gg (vzero n)) as [Hz0|Hnz].
  - (* no gradient: the minimum is reached *)
    assert (Hgn0 : gn = vzero n).
    { rewrite <- (f_equal snd Hsh : snd (m_shape A) = n). apply (proj1 (normal_descent A (1 / 100000) (vneg (s_res s)) gn HA ltac:(lra) Hneg Hn)). fold gg. rewrite Hsh. auto. }
    assert (Nz : sumsq (vzero n) = 0) by (rewrite sumsq_dot; apply vdot_zero_l).
    assert (Hd0 : d = vzero n). { rewrite Fg; auto. rewrite Hgn0, (vnorm_eq _ 0); [lra | lra | rewrite Nz; ring]. }
    assert (Hprop : prop = s_assign s).
    { pose proof (retract_layout _ _ _ _ Er) as HLa. assert (Hs2 : as_storage prop = as_storage (s_assign s)) by (rewrite Hst2, Hd0, <- (Hla : _ = n); apply vadd_zero).
      destruct prop, (s_assign s); cbn in *; congruence. }
    rewrite Hprop in *. rewrite Hcur in Ec. injection Ec as <- <-.
    assert (Es : s_assign s' = s_assign s /\ s_cost s' = s_cost s) by (destruct (nleb (dl_quality_min cfg) q) eqn:Eacc; auto).
    destruct Es as (Es1 & Es2). split; [|split; [|split; [|split]]].
    + split; [unfold current; rewrite Es1, Es2, Hres; exact Hcur | exists val; rewrite Es1; auto].
    + rewrite Eex. unfold dogleg_radius. rn. repeat match goal with |- context [if ?b then _ else _] => destruct b end; auto; [unfold Rlit; lra | eapply Rlt_le_trans; [exact Hx | apply Rmax_l]].
    + lra.
    + rewrite Es1. lra.
    + left. assert (Hae : sumsq (mapply A e) = 0). { rewrite sumsq_dot, <- Hgy by (rewrite Hsh; auto). fold gg. rewrite Hz0. apply vdot_zero_r. }
      apply sumsq_zero in Hae. rewrite LA in Hae. rewrite Hcz, Hae, <- (Hm : _ = m), vadd_zero. lra.
  - assert (Hgp : 0 < sumsq gg) by (rewrite sumsq_dot; apply (dot_pos n); auto).
    assert (HF0 : 0 <= sumsq (mapply A gg) / sumsq gg) by (apply Rmult_le_pos; [apply sumsq_nonneg | apply Rlt_le, Rinv_0_lt_compat; auto]).
    assert (HF : sumsq (mapply A gg) <= sumsq (mapply A gg) / sumsq gg * sumsq gg) by (right; field; lra).
    destruct (dogleg_lower A (vneg (s_res s)) _ HA Hneg HF0 HF (1 / 100000) gn _ (s_extra s) ltac:(lra) Hx Hn eq_refl) as (_ & _ & D). fold gg in D.
    rewrite Eb in D. rewrite <- Ed in D. rewrite <- Eb in D.
    assert (Dp : 0 < Rmin (s_extra s * vnorm gg) (sumsq gg / (sumsq (mapply A gg) / sumsq gg + 1 / 100000))).
    { apply Rmin_glb_lt; [apply Rmult_lt_0_compat; auto | apply Rmult_lt_0_compat; auto; apply Rinv_0_lt_compat; lra].
      destruct (vnorm_sq gg) as (V1 & V2). destruct V1; auto. rewrite <- H0 in V2. lra. }
    assert (Hlt : c < s_cost s) by lra.
    assert (Hq1 : q = 1) by (rewrite Eq; field; lra).
    assert (Eacc : nleb (dl_quality_min cfg) q = true) by (rewrite Hq1; rn; apply Rleb_ok; auto).
    destruct (Hacc Eacc) as (Es1 & Es2).
    assert (Erad : s_extra s' = Rmax (s_extra s) (3 * vnorm d)).
    { rewrite Eex, Hq1. unfold dogleg_radius. rn. rewrite (proj2 (Rltb_no _ _)) by (unfold Rlit; lra). rewrite (proj2 (Rltb_ok _ _)) by (unfold Rlit; lra). f_equal. unfold Rlit. lra. }
    pose proof (Rmax_l (s_extra s) (3 * vnorm d)) as Hrm. split; [|split; [|split; [|split]]].
    + split; [unfold current; rewrite Es1, Es2, Hres; exact Ec | exists val2; rewrite Es1; auto].
    + lra.
    + lra.
    + rewrite Es1, Hdz. unfold dist2. fold e. auto.
    + right. destruct (Rle_lt_dec (vnorm gn) (s_extra s)) as [Hc|Hc].
      * left. split; [lra|]. intros b valb cb rb Hb Ecb. specialize (Hall _ _ _ _ Hb Ecb). rewrite Es1, Es2. unfold dist2. rewrite Hst2, add_sub by congruence. rewrite (Fg Hc) in *.
        assert (c1 = c). { pose proof (cost_parts E g _ _ _ Ec1) as (_ & ->). rewrite Hr1, Hc2, Hr2. auto. }
        rewrite Hst1 in Hall. lra.
      * right. split.
        -- unfold dist2. fold e. destruct (vnorm_sq gn) as (V1 & V2). apply Rlt_le_trans with (vnorm gn * vnorm gn); [apply Rmult_le_0_lt_compat; lra | lra].
        -- rewrite Erad, (Ft Hc). apply Rmax_right. lra.
Qed.

Lemma dl_chain cfg : dl_quality_min cfg <= 1 -> forall k s s', fresh s -> 0 < s_extra s -> iterate k (dl_step E cfg cholmod_solve g) s = Ok s' ->
  fresh s' /\ s_cost s' <= s_cost s /\ cz <= s_cost s' /\
  forall K, dist2 z (s_assign s) <= (3 ^ K * s_extra s) * (3 ^ K * s_extra s) -> (INR k - INR K) * (s_cost s' - cz) <= 1 / 100000 * dist2 z (s_assign s).
Proof.
  intros Hq. induction k as [|k IH]; intros s s' Hf Hx H.
  - injection H as <-. split; auto. split; [lra|]. destruct Hf as (Hcur & val & Ha). pose proof (Hmin _ _ _ _ Ha Hcur) as Hle. split; auto.
    intros K _. simpl INR. pose proof (pos_INR K). pose proof (sumsq_nonneg (vsub (as_storage z) (as_storage (s_assign s)))). unfold dist2. nra.
  - simpl in H. apply bind_ok in H. destruct H as (s1 & H1 & H2). destruct (dl_lin cfg s s1 Hq Hf Hx H1) as (Hf1 & Hx1 & Hc1 & Hd1 & Hcase).
    destruct (IH s1 s' Hf1 Hx1 H2) as (Hf' & Hc' & Hz' & Hr). split; auto. split; [lra|]. split; auto. intros K HK. rewrite S_INR.
    pose proof (sumsq_nonneg (vsub (as_storage z) (as_storage (s_assign s1)))) as P1. change (0 <= dist2 z (s_assign s1)) in P1.
    destruct Hcase as [Ho|[(Hr1 & Hp)|(Ht & Hr1)]].
    + assert (s_cost s' - cz = 0) by lra. rewrite H. lra.
    + assert (P3 : 0 < 3 ^ K) by (apply pow_lt; lra).
      assert (HK1 : dist2 z (s_assign s1) <= 3 ^ K * s_extra s1 * (3 ^ K * s_extra s1)).
      { eapply Rle_trans; [exact Hd1|]. eapply Rle_trans; [exact HK|]. assert (3 ^ K * s_extra s <= 3 ^ K * s_extra s1) by (apply Rmult_le_compat_l; lra).
        assert (0 <= 3 ^ K * s_extra s) by (apply Rmult_le_pos; lra). apply Rmult_le_compat; auto. }
      specialize (Hr K HK1). specialize (Hp _ _ _ _ Hz Ez). pose proof (sumsq_nonneg (vsub (as_storage (s_assign s1)) (as_storage (s_assign s)))) as P4. change (0 <= dist2 (s_assign s1) (s_assign s)) in P4. lra.
    + destruct K as [|K]; [simpl in HK; lra|]. rewrite S_INR.
      assert (HK1 : dist2 z (s_assign s1) <= 3 ^ K * s_extra s1 * (3 ^ K * s_extra s1)).
      { rewrite Hr1. simpl pow in HK. replace (3 ^ K * (3 * s_extra s)) with (3 * 3 ^ K * s_extra s) by ring. lra. }
      specialize (Hr K HK1). lra.
Qed.
End Min.

Lemma lin_minimum s A : fresh s -> compute_whitened_residual_jacobian E g (s_assign s) (s_res s) = Ok A ->
  exists z valz cz rz, holds E fs z valz /\ compute_cost E g z = Ok (cz, rz) /\
    forall b valb cb rb, holds E fs b valb -> compute_cost E g b = Ok (cb, rb) -> cz <= cb.
Proof.
  intros Hf EA. destruct (fresh_shapes E fs g LP CO Hok Hg Hne Hrd Hws s A Hf EA) as (HA & Hsh & Hm).
  destruct (least_squares A (s_res s) HA ltac:(rewrite Hsh; auto)) as (x & Hx & Hmin). rewrite Hsh in Hx.
  destruct (lin_move s A x Hf EA Hx) as (z & cz & rz & valz & _ & Ec & Hh & Hc & Hr & _).
  exists z, valz, cz, rz. do 2 (split; auto). intros b valb cb rb Hb Eb. destruct Hf as (Hcur & val & Ha).
  pose proof (cost_parts E g _ _ _ Hcur) as (Hw & _). pose proof (cost_parts E g _ _ _ Eb) as (Hwb & ->).
  destruct (lin_residual E fs g LP CO Hok Hg Hne Hrd Hws (s_assign s) val b valb _ _ (s_res s) A Ha Hb Hm Hw Hwb EA) as (_ & _ & _ & ->).
  rewrite Hc, Hr. apply Hmin. rewrite Hsh. cbn. pose proof (held_length E fs LP CO _ _ Ha). pose proof (held_length E fs LP CO _ _ Hb). rewrite vsub_length; congruence.
Qed.
End Lin.
