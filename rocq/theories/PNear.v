(* Linear least-squares problems: the iterations stay orthogonal to what the measurements do
   not determine, and approach the nearest minimiser at a fixed rate. *)
From Coq Require Import List Arith Bool ZArith Lia Permutation Reals Lra Psatz.
From Verif Require Import Num NumR Py Arr MLayout MAssign MNoise MSparse MFactor MGraph MLinear MSolver SpecLayout SpecTree SpecAssign SpecGraph SpecSparse SpecDeriv SpecSolver SpecOrder SpecInv SpecLin.
From Verif Require Import PBase PLayout PAssign PAssign2 PStack PGraph PGraph2 PGraph3 PGraph4 PVec PSparse PLinear PCg PJac PGraph5 PLayout2 POrder PHold PExGraph PSolver PSolver2 PInv PTotal PSolverR PLin PDescent PLinDl PLocal.
Import ListNotations.
Local Open Scope R_scope.

Lemma vsum_factor {X} (f : X -> R) c l : vsum (map (fun x => f x * c) l) = vsum (map f l) * c.
Proof. induction l as [|x l IH]; simpl map; [rewrite !vsum_nil; lra|]. rewrite !vsum_cons, IH. lra. Qed.
Lemma finite_choice {X} (P : nat -> X -> Prop) (d : X) k : (forall i, (i < k)%nat -> exists x, P i x) -> exists f, forall i, (i < k)%nat -> P i (f i).
Proof.
  induction k as [|k IH]; intros H; [exists (fun _ => d); intros; lia|].
  destruct IH as (f & Hf); [intros; apply H; lia|]. destruct (H k ltac:(lia)) as (x & Hx).
  exists (fun i => if Nat.eqb i k then x else f i). intros i Hi. destruct (Nat.eqb_spec i k) as [->|Hn]; auto. apply Hf. lia.
Qed.

Section Matrix.
Variable A : coo R.
Hypothesis HA : coo_ok A.
Let n := snd (m_shape A).
Let m := fst (m_shape A).

(* orthogonal to the kernel of A *)
Definition ortho (x : list R) : Prop := forall y, length y = n -> mapply A y = vzero m -> vdot x y = 0.

Lemma ortho_add x y : length x = n -> length y = n -> ortho x -> ortho y -> ortho (vadd x y).
Proof. intros Hx Hy H1 H2 u Hu H0. rewrite vdot_add_l by congruence. rewrite (H1 u), (H2 u); auto. lra. Qed.
Lemma ortho_sub x y : length x = n -> length y = n -> ortho x -> ortho y -> ortho (vsub x y).
Proof. intros Hx Hy H1 H2 u Hu H0. rewrite vdot_comm, vdot_sub_r, !(vdot_comm u) by congruence. rewrite (H1 u), (H2 u); auto. lra. Qed.
Lemma ortho_scale t x : ortho x -> ortho (vscale t x).
Proof. intros H1 u Hu H0. rewrite vdot_scale_l, (H1 u); auto. lra. Qed.
Lemma ortho_zero : ortho (vzero n).
Proof. intros u _ _. apply vdot_zero_l. Qed.
Lemma ortho_image w : length w = m -> ortho (mapply (transpose A) w).
Proof. intros Hw u Hu H0. rewrite vdot_comm, <- mapply_adjoint, H0 by auto. apply vdot_zero_l. Qed.
Lemma ortho_normal beta w x : beta <> 0 -> length w = m -> normal_ok A beta (mapply (transpose A) w) x -> ortho x.
Proof.
  intros Hb Hw Hn u Hu H0. pose proof (proj1 Hn) as Hx. fold n in Hx.
  pose proof (ortho_image w Hw u Hu H0) as Hi. rewrite vdot_comm in Hi. rewrite <- (proj2 Hn) in Hi.
  rewrite vdot_add_r in Hi by (rewrite vscale_length, mapply_length; auto). rewrite <- mapply_adjoint, H0, vdot_zero_l, vdot_scale_r in Hi by (auto; apply mapply_length).
  rewrite vdot_comm. apply (Rmult_eq_reg_l beta); auto. lra.
Qed.
Lemma ortho_kernel x : length x = n -> ortho x -> mapply A x = vzero m -> x = vzero n.
Proof. intros Hx H H0. specialize (H x Hx H0). rewrite <- sumsq_dot in H. apply (proj1 (PVec.sumsq_zero x)) in H. rewrite Hx in H. auto. Qed.

Lemma adjoint_zero v : length v = n -> (forall w, length w = m -> vdot (mapply (transpose A) w) v = 0) -> mapply A v = vzero m.
Proof.
  intros Hv H. apply (vec_ext m); [apply mapply_length | apply vzero_length|]. intros y Hy.
  rewrite vdot_zero_r, vdot_comm, mapply_adjoint, vdot_comm by auto. apply H; auto.
Qed.
Lemma sumsq_stationary (a b : list R) : length a = length b -> (forall t, sumsq a <= sumsq (vadd a (vscale t b))) -> vdot a b = 0.
Proof.
  intros Hl H. apply (flat _ (sumsq b)); [apply sumsq_nonneg|]. intros t. specialize (H t).
  rewrite sumsq_add, sumsq_scale, vdot_scale_r in H by (rewrite vscale_length; auto). lra.
Qed.

(* the part of x orthogonal to the kernel *)
Lemma row_part x : length x = n -> exists p, length p = n /\ mapply A p = mapply A x /\ ortho p.
Proof.
  intros Hx. pose proof (transpose_ok A HA) as HT.
  destruct (least_squares (transpose A) (vneg x) HT) as (w & Hw & Hmin); [unfold vneg; rewrite map_length; exact Hx|].
  change (snd (m_shape (transpose A))) with m in *. change (length w = m) in Hw.
  set (p := mapply (transpose A) w). assert (Hp : length p = n) by apply mapply_length.
  assert (Hln : length (vneg x) = n) by (unfold vneg; rewrite map_length; auto).
  set (v := vadd (vneg x) p). assert (Hv : length v = n) by (unfold v; rewrite vadd_length; congruence).
  exists p. split; auto. split; [|apply ortho_image; auto].
  assert (H0 : mapply A v = vzero m).
  { apply adjoint_zero; auto. intros u Hu. rewrite vdot_comm. apply sumsq_stationary; [rewrite mapply_length; exact Hv|]. intros t.
    assert (Hlu : length (vadd w (vscale t u)) = m) by (rewrite vadd_length; rewrite ?vscale_length; congruence).
    specialize (Hmin _ Hlu). rewrite mapply_add, mapply_scale in Hmin by (auto; rewrite ?vscale_length; auto).
    rewrite vadd_sub_add in Hmin by (rewrite mapply_length; auto). exact Hmin. }
  apply (vec_ext m); try apply mapply_length. intros y Hy.
  assert (Hz : vdot y (mapply A v) = 0) by (rewrite H0; apply vdot_zero_r). unfold v in Hz. rewrite mapply_add, vdot_add_r in Hz by (auto; rewrite !mapply_length; auto).
  assert (Hnx : vdot y (mapply A (vneg x)) = - vdot y (mapply A x)).
  { rewrite (vdot_comm y), (mapply_adjoint A (vneg x)), (vdot_comm y), (mapply_adjoint A x), (vdot_comm (vneg x)), vdot_neg_r, vdot_comm by auto. auto. }
  lra.
Qed.

(* the normal equations for one right-hand side, solved orthogonally to the kernel *)
Lemma pseudo b : length b = m -> exists x, length x = n /\ ortho x /\ forall u, length u = n -> vdot (mapply A u) (mapply A x) = vdot (mapply A u) b.
Proof.
  intros Hb. assert (Hln : length (vneg b) = m) by (unfold vneg; rewrite map_length; auto).
  destruct (least_squares A (vneg b) HA Hln) as (x & Hx & Hmin). fold n in Hx, Hmin. destruct (row_part x Hx) as (p & Hp & Ep & Op).
  exists p. split; auto. split; auto. intros u Hu. rewrite Ep.
  assert (H0 : vdot (vadd (vneg b) (mapply A x)) (mapply A u) = 0).
  { apply sumsq_stationary; [rewrite vadd_length; rewrite !mapply_length; auto|]. intros t.
    assert (Hlu : length (vadd x (vscale t u)) = n) by (rewrite vadd_length; rewrite ?vscale_length; congruence).
    specialize (Hmin _ Hlu). rewrite mapply_add, mapply_scale in Hmin by (auto; rewrite ?vscale_length; auto).
    rewrite vadd_sub_add in Hmin by (rewrite mapply_length; auto). exact Hmin. }
  rewrite vdot_comm, vdot_add_r, vdot_neg_r in H0 by (rewrite mapply_length; auto). lra.
Qed.

Lemma comb_facts (c : nat -> R) (h : nat -> list R) (l : list nat) : (forall i, In i l -> length (h i) = n) -> let s := fold_right (fun i acc => vadd (vscale (c i) (h i)) acc) (vzero n) l in
  length s = n /\ (forall u, length u = n -> vdot u s = vsum (map (fun i => c i * vdot u (h i)) l)) /\ ((forall i, In i l -> ortho (h i)) -> ortho s).
Proof.
  induction l as [|i l IH]; intros Hl; simpl.
  - split; [apply vzero_length|]. split; [intros u Hu; rewrite vsum_nil; apply vdot_zero_r | intros _; apply ortho_zero].
  - destruct IH as (I1 & I2 & I3); [intros; apply Hl; right; auto|]. pose proof (Hl i (or_introl eq_refl)) as Hi.
    split; [rewrite vadd_length; rewrite ?vscale_length; congruence|]. split.
    + intros u Hu. rewrite vdot_add_r by (rewrite vscale_length; congruence). rewrite vdot_scale_r, vsum_cons, I2 by auto. auto.
    + intros Ho. apply ortho_add; [rewrite vscale_length; auto | auto | apply ortho_scale, Ho; left; auto | apply I3; intros; apply Ho; right; auto].
Qed.

(* A is bounded below on the orthogonal complement of its kernel *)
Lemma bounded_below : exists mu, 0 < mu /\ forall x, length x = n -> ortho x -> mu * sumsq x <= sumsq (mapply A x).
Proof.
  destruct (finite_choice (fun i x => length x = n /\ ortho x /\ forall u, length u = n -> vdot (mapply A u) (mapply A x) = nth i (mapply A u) 0) [] m) as (h & Hh).
  { intros i Hi. destruct (pseudo (unitv m i) (unitv_length m i)) as (x & Hx & Ox & Hu). exists x. split; auto. split; auto.
    intros u Hlu. rewrite Hu, vdot_comm, vdot_unitv by (auto; apply mapply_length). auto. }
  set (G := vsum (map (fun i => sumsq (h i)) (seq 0 m))).
  assert (HG : 0 <= G).
  { unfold G. generalize (seq 0 m). induction l as [|i l IH]; simpl map; [rewrite vsum_nil; lra|]. rewrite vsum_cons. pose proof (sumsq_nonneg (h i)). lra. }
  exists (/ (G + 1)). split; [apply Rinv_0_lt_compat; lra|]. intros x Hx Ox. set (y := mapply A x). assert (Hy : length y = m) by apply mapply_length.
  destruct (comb_facts (fun i => nth i y 0) h (seq 0 m)) as (Ls & Ds & Os); [intros i Hi; apply in_seq in Hi; apply Hh; lia|].
  set (s := fold_right _ _ _) in *. specialize (Os ltac:(intros i Hi; apply in_seq in Hi; apply Hh; lia)).
  assert (Es : s = x).
  { assert (Hk : mapply A (vsub s x) = vzero m).
    { assert (Hlsx : length (vsub s x) = n) by (rewrite vsub_length; congruence).
      assert (Hd : vdot (mapply A (vsub s x)) (mapply A (vsub s x)) = 0).
      { rewrite (mapply_sub A HA) at 2 by auto. fold y. rewrite vdot_sub_r by (rewrite !mapply_length; auto).
        assert (vdot (mapply A (vsub s x)) (mapply A s) = vdot (mapply A (vsub s x)) y); [|lra].
        rewrite (vdot_comm _ (mapply A s)), mapply_adjoint, vdot_comm by (auto; apply mapply_length). rewrite Ds by apply mapply_length.
        rewrite (vdot_seq (mapply A (vsub s x)) y m) by (auto; apply mapply_length). apply vsum_map_ext. intros i Hi. apply in_seq in Hi.
        rewrite vdot_comm, <- mapply_adjoint by (auto; try apply mapply_length; apply Hh; lia).
        rewrite vdot_comm. destruct (Hh i ltac:(lia)) as (_ & _ & Hu). rewrite Hu by auto. lra. }
      rewrite <- sumsq_dot in Hd. apply (proj1 (PVec.sumsq_zero _)) in Hd. rewrite mapply_length in Hd. exact Hd. }
    assert (Hz : vsub s x = vzero n) by (apply ortho_kernel; auto; [rewrite vsub_length; congruence | apply ortho_sub; auto]).
    apply (vec_ext n); auto. intros u Hu. assert (vdot u (vsub s x) = 0) by (rewrite Hz; apply vdot_zero_r). rewrite vdot_sub_r in H by congruence. lra. }
  assert (Hxx : sumsq x = vdot y (map (fun i => vdot x (h i)) (seq 0 m))).
  { rewrite sumsq_dot. rewrite <- Es at 2. rewrite Ds by auto.
    rewrite (vdot_seq y _ m) by (auto; rewrite map_length, seq_length; auto). apply vsum_map_ext. intros i Hi. apply in_seq in Hi. f_equal.
    rewrite (nth_indep _ 0 (vdot x (h 0%nat))) by (rewrite map_length, seq_length; lia). rewrite (map_nth (fun i => vdot x (h i))). rewrite seq_nth by lia. auto. }
  set (q := map (fun i => vdot x (h i)) (seq 0 m)) in *.
  pose proof (cauchy_schwarz y q ltac:(unfold q; rewrite map_length, seq_length; auto)) as HC. rewrite <- Hxx in HC.
  assert (Hq : sumsq q <= sumsq x * G).
  { unfold q, G. assert (Hall : forall l, (forall i, In i l -> (i < m)%nat) -> sumsq (map (fun i => vdot x (h i)) l) <= sumsq x * vsum (map (fun i => sumsq (h i)) l)).
    { induction l as [|i l IH]; intros Hl; simpl map; [rewrite vsum_nil, sumsq_dot, vdot_nil_l; lra|]. rewrite sumsq_cons, vsum_cons.
      specialize (IH ltac:(intros; apply Hl; right; auto)). pose proof (cauchy_schwarz x (h i) ltac:(rewrite Hx; symmetry; apply Hh; apply Hl; left; auto)). lra. }
    apply Hall. intros i Hi. apply in_seq in Hi. lia. }
  pose proof (sumsq_nonneg x) as P1. pose proof (sumsq_nonneg y) as P2. fold y.
  destruct (Req_dec (sumsq x) 0) as [E0|E0]; [rewrite E0; lra|].
  assert (H1 : sumsq x * sumsq x <= sumsq y * (sumsq x * G)) by (eapply Rle_trans; [exact HC | apply Rmult_le_compat_l; auto]).
  assert (H2 : sumsq x <= sumsq y * G) by (apply (Rmult_le_reg_l (sumsq x)); lra).
  apply (Rmult_le_reg_l (G + 1)); [lra|]. rewrite <- Rmult_assoc, Rinv_r by lra. lra.
Qed.
End Matrix.

(* ---- vectors ---- *)
Lemma sub_via (x y z : list R) : length x = length z -> length y = length z -> vsub z y = vsub (vsub z x) (vsub y x).
Proof. revert y z. induction x as [|a x IH]; intros [|b y] [|c z] H1 H2; try discriminate; auto. rewrite !vsub_cons. f_equal; [lra | apply IH; simpl in *; lia]. Qed.
Lemma add_sub_other (x y d : list R) : length x = length y -> length d = length y -> vsub (vadd x d) y = vadd (vsub x y) d.
Proof. revert y d. induction x as [|a x IH]; intros [|b y] [|c d] H1 H2; try discriminate; auto. rewrite vsub_cons, !vadd_cons, vsub_cons. f_equal; [lra | apply IH; simpl in *; lia]. Qed.
Lemma half a b : 0 <= a -> (forall t, 0 < t <= 1 -> (2 * t - t * t) * a <= 2 * t * b) -> a <= b.
Proof.
  intros Ha H. destruct (Rle_lt_dec a b) as [|Hlt]; auto. exfalso. pose proof (H 1 ltac:(lra)) as H1.
  assert (Hb : 0 <= b) by lra. assert (Hpos : 0 < a) by lra. set (t := (a - b) / a).
  assert (Et : t * a = a - b) by (unfold t; field; lra).
  assert (Ht : 0 < t) by (unfold t; apply Rmult_lt_0_compat; [lra | apply Rinv_0_lt_compat; auto]). assert (Ht1 : t <= 1) by nra.
  specialize (H t (conj Ht Ht1)). assert (2 * (a - b) <= t * a); [|lra]. apply (Rmult_le_reg_l t); auto. nra.
Qed.

Section Lin.
Variable E : env R.
Let C := e_cls E.
Variable fs : list (factor R).
Variable g : graph R.
Hypothesis LP : linear_problem E fs.
Hypothesis CO : classes_ok C.
Hypothesis Hok : forall f, In f fs -> factor_ok f.
Hypothesis Hg : is_graph E fs g.
Hypothesis Hne : fs <> [].
Hypothesis Hrd : total residual_dim fs <> 0%nat.
Hypothesis Hws : well_shaped E fs.
Let L := graph_layout E fs true.
Let n := l_dim L.
Let m := total residual_dim fs.
Notation fresh := (fresh E fs g).
Variable A : coo R.
Hypothesis HA : coo_ok A.
Hypothesis Hsh : m_shape A = (m, n).
Hypothesis HJ : forall s, fresh s -> compute_whitened_residual_jacobian E g (s_assign s) (s_res s) = Ok A.
Notation ortho := (ortho A).

Lemma near_length s : fresh s -> length (as_storage (s_assign s)) = n.
Proof. intros (_ & val & Ha). apply (held_length E fs LP CO _ _ Ha). Qed.

(* the step of Dogleg *)
Lemma dl_ortho cfg s s' : fresh s -> dl_step E cfg cholmod_solve g s = Ok s' -> ortho (vsub (as_storage (s_assign s')) (as_storage (s_assign s))).
Proof.
  intros Hf H. destruct (dl_tr E _ _ _ _ _ H) as (B & ATb & gn & Asd & d & prop & c & r & q & Ht & Eb & Egn & Easd & Ed & _).
  destruct Ht as [EA Er Ec _ Hacc Hrej _ _]. rewrite (HJ s Hf) in EA. injection EA as <-.
  destruct (fresh_shapes E fs g LP CO Hok Hg Hne Hrd Hws s A Hf (HJ s Hf)) as (_ & _ & Hm). fold m in Hm.
  pose proof (near_length s Hf) as Hls.
  assert (Hneg : length (vneg (s_res s)) = fst (m_shape A)) by (unfold vneg; rewrite map_length, Hsh; auto).
  rewrite matmul_mapply in Eb by (auto using transpose_ok). injection Eb as Eb.
  assert (Hmu : 0 < n0 + Rlit 1 100000) by (unfold Rlit; rn; lra).
  assert (Hlb : length ATb = snd (m_shape A)) by (rewrite <- Eb; apply mapply_length).
  destruct (cholmod_solve_ok A ATb n0 (s_iter s) HA Hmu Hlb) as (x & Ex & Hn). rewrite Egn in Ex. injection Ex as <-. pose proof (proj1 Hn) as Hlg.
  rewrite <- Eb in Hn. pose proof (ortho_normal A HA _ _ gn (Rgt_not_eq _ _ Hmu) Hneg Hn) as Og.
  pose proof (ortho_image A HA (vneg (s_res s)) Hneg) as Ob. rewrite Eb in Ob.
  assert (Hd : length d = snd (m_shape A) /\ ortho d).
  { rewrite Ed. unfold dogleg_step_of. rn. repeat match goal with |- context [if ?b then _ else _] => destruct b end; (split; [rewrite ?vadd_length; rewrite ?vscale_length; rewrite ?vsub_length; rewrite ?vscale_length; congruence|]); auto;
      repeat first [apply ortho_scale | assumption | apply (ortho_add A) | apply (ortho_sub A)]; repeat (rewrite ?vscale_length; rewrite ?vsub_length); rewrite ?vscale_length; congruence. }
  destruct Hd as (Hld & Od). rewrite Hsh in Hld. cbn [snd] in Hld.
  destruct (lin_move E fs g LP CO Hok Hg Hne Hrd Hws s A d Hf (HJ s Hf) Hld) as (a2 & c2 & r2 & val2 & Er2 & _ & _ & _ & _ & Hst2).
  rewrite (ig_local _ _ _ Hg) in Er. assert (a2 = prop) by (apply (f_equal (fun r => match r with Ok a => a | Err _ => a2 end)) in Er2; unfold C, L in *; rewrite Er in Er2; auto). subst a2.
  destruct (nleb (dl_quality_min cfg) q) eqn:Eacc.
  - destruct (Hacc eq_refl) as (-> & _). rewrite Hst2, add_sub by congruence. auto.
  - destruct (Hrej eq_refl) as (-> & _). intros u Hu H0. rewrite vdot_comm, vdot_sub_r by auto. lra.
Qed.

Section Min.
Variables (z : assign R) (valz : var -> pytree R) (cz : R) (rz : list R).
Hypothesis Hz : holds E fs z valz.
Hypothesis Ez : compute_cost E g z = Ok (cz, rz).
Hypothesis Hmin : forall b valb cb rb, holds E fs b valb -> compute_cost E g b = Ok (cb, rb) -> cz <= cb.
Variable mu : R.
Hypothesis Hmu : 0 < mu.
Hypothesis Hbound : forall x, length x = n -> ortho x -> mu * sumsq x <= sumsq (mapply A x).

Definition dev (s : sstate R) : list R := vsub (as_storage z) (as_storage (s_assign s)).

Lemma dev_length s : fresh s -> length (dev s) = n.
Proof. intros Hf. pose proof (near_length s Hf). pose proof (held_length E fs LP CO _ _ Hz : _ = n). unfold dev. rewrite vsub_length; congruence. Qed.
Lemma dev_gradient s y : fresh s -> length y = n -> - vdot (mapply A y) (s_res s) = vdot (mapply A y) (mapply A (dev s)).
Proof. intros Hf Hy. destruct (min_gradient E fs g LP CO Hok Hg Hne Hrd Hws z valz cz rz Hz Ez Hmin s A Hf (HJ s Hf)) as (_ & _ & H). apply H; auto. Qed.
Lemma gap s : fresh s -> s_cost s - cz = sumsq (mapply A (dev s)).
Proof.
  intros Hf. destruct (min_gradient E fs g LP CO Hok Hg Hne Hrd Hws z valz cz rz Hz Ez Hmin s A Hf (HJ s Hf)) as (_ & Hc & _). fold (dev s) in Hc.
  destruct (fresh_shapes E fs g LP CO Hok Hg Hne Hrd Hws s A Hf (HJ s Hf)) as (_ & _ & Hm). fold m in Hm.
  pose proof (dev_gradient s (dev s) Hf (dev_length s Hf)) as Hg'. rewrite <- sumsq_dot in Hg'.
  destruct (cost_parts E g _ _ _ (proj1 Hf)) as (_ & Hcost). rewrite Hc, Hcost.
  rewrite sumsq_add by (rewrite mapply_length, Hsh; auto). rewrite (vdot_comm (s_res s)). lra.
Qed.
Lemma arrived s : fresh s -> ortho (dev s) -> s_cost s <= cz -> sumsq (dev s) = 0.
Proof.
  intros Hf Ho Hc. pose proof (gap s Hf). pose proof (Hbound (dev s) (dev_length s Hf) Ho). pose proof (sumsq_nonneg (dev s)). nra.
Qed.

Lemma contract s s' beta : fresh s -> fresh s' -> 0 < beta ->
  (forall b valb cb rb, holds E fs b valb -> compute_cost E g b = Ok (cb, rb) ->
     s_cost s' + beta * sumsq (vsub (as_storage (s_assign s')) (as_storage (s_assign s))) + beta * sumsq (vsub (as_storage b) (as_storage (s_assign s'))) <=
     cb + beta * sumsq (vsub (as_storage b) (as_storage (s_assign s)))) ->
  ortho (dev s) -> ortho (dev s') /\ (mu + beta) * (mu + beta) * sumsq (dev s') <= beta * beta * sumsq (dev s).
Proof.
  intros Hf Hf' Hb Hp Ho. pose proof (near_length s Hf) as Ls. pose proof (near_length s' Hf') as Ls'. pose proof (held_length E fs LP CO _ _ Hz : _ = n) as Lz.
  set (d := vsub (as_storage (s_assign s')) (as_storage (s_assign s))) in *. assert (Ld : length d = n) by (unfold d; rewrite vsub_length; congruence).
  assert (Ed : dev s' = vsub (dev s) d) by (unfold dev, d; apply sub_via; congruence).
  pose proof (dev_length s Hf) as Le. pose proof (dev_length s' Hf') as Le'.
  destruct (fresh_shapes E fs g LP CO Hok Hg Hne Hrd Hws s' A Hf' (HJ s' Hf')) as (_ & _ & Hm'). fold m in Hm'.
  destruct (cost_parts E g _ _ _ (proj1 Hf')) as (_ & Hcost').
  (* any further move *)
  assert (Hmove : forall x, length x = n -> sumsq (s_res s') + beta * sumsq d + beta * sumsq x <= sumsq (vadd (s_res s') (mapply A x)) + beta * sumsq (vadd d x)).
  { intros x Hx. destruct (lin_move E fs g LP CO Hok Hg Hne Hrd Hws s' A x Hf' (HJ s' Hf') Hx) as (b & cb & rb & valb & _ & Ecb & Hh & Hcb & Hrb & Hst).
    specialize (Hp _ _ _ _ Hh Ecb). rewrite Hst in Hp. rewrite add_sub, add_sub_other in Hp by congruence. fold d in Hp. rewrite Hcb, Hrb, Hcost' in Hp. auto. }
  assert (Od : ortho d).
  { intros y Hy H0. rewrite Hsh in Hy. cbn [snd] in Hy. apply (flat _ 0); [lra|]. intros t. specialize (Hmove (vscale t y) ltac:(rewrite vscale_length; auto)).
    rewrite mapply_scale, H0 in Hmove by (auto; rewrite Hsh; auto).
    assert (Hsm : vadd (s_res s') (vscale t (vzero (fst (m_shape A)))) = s_res s').
    { rewrite Hsh. cbn [fst]. apply (vec_ext m); auto; [rewrite vadd_length; rewrite ?vscale_length, ?vzero_length; auto|].
      intros u Hu. rewrite vdot_add_r by (rewrite vscale_length, vzero_length; auto). rewrite vdot_scale_r, vdot_zero_r. lra. }
    rewrite Hsm, (sumsq_add d) in Hmove by (rewrite vscale_length; congruence). rewrite vdot_scale_r in Hmove. nra. }
  assert (Oe : ortho (dev s')) by (rewrite Ed; apply ortho_sub; auto; rewrite Hsh; auto).
  split; auto. set (e' := dev s') in *. set (a := sumsq (mapply A e')).
  assert (Hab : a <= beta * vdot d e').
  { apply half; [apply sumsq_nonneg|]. intros t Ht. specialize (Hmove (vscale t e') ltac:(rewrite vscale_length; auto)).
    rewrite mapply_scale in Hmove by (auto; rewrite Hsh; auto).
    rewrite (sumsq_add (s_res s')), (sumsq_add d), !sumsq_scale, !vdot_scale_r in Hmove by (rewrite vscale_length, ?mapply_length, ?Hsh; cbn; congruence).
    pose proof (dev_gradient s' e' Hf' Le') as Hgr. fold e' in Hgr. rewrite <- sumsq_dot in Hgr. fold a in Hgr, Hmove. rewrite (vdot_comm (s_res s')) in Hmove.
    replace (vdot (mapply A e') (s_res s')) with (- a) in Hmove by lra. nra. }
  assert (Ede : vdot d e' = vdot e' (dev s) - sumsq e').
  { assert (d = vsub (dev s) e'); [|rewrite H, vdot_comm, vdot_sub_r, sumsq_dot by congruence; auto].
    rewrite Ed. apply (vec_ext n); auto; [rewrite !vsub_length; try congruence; rewrite vsub_length; congruence|].
    intros u Hu. rewrite !vdot_sub_r by (rewrite ?vsub_length; congruence). lra. }
  pose proof (Hbound e' Le' Oe) as Hlow. fold a in Hlow.
  pose proof (cauchy_schwarz e' (dev s) ltac:(congruence)) as HC. pose proof (sumsq_nonneg e') as P1. pose proof (sumsq_nonneg (dev s)) as P2.
  set (w := sumsq e') in *. set (v := sumsq (dev s)) in *. set (p := vdot e' (dev s)) in *.
  assert (H1 : (mu + beta) * w <= beta * p) by nra.
  assert (H2 : (mu + beta) * w * ((mu + beta) * w) <= beta * beta * (w * v)).
  { apply Rle_trans with (beta * p * (beta * p)); [apply Rmult_le_compat; auto; apply Rmult_le_pos; lra|].
    replace (beta * p * (beta * p)) with (beta * beta * (p * p)) by ring. apply Rmult_le_compat_l; [nra | auto]. }
  destruct (Req_dec w 0) as [Hw|Hw]; [rewrite Hw, Rmult_0_r; apply Rmult_le_pos; nra|].
  apply (Rmult_le_reg_l w); [lra|]. nra.
Qed.

Definition ratio (beta : R) : R := beta / (mu + beta).
Lemma ratio_pos beta : 0 < beta -> 0 < ratio beta < 1.
Proof.
  intros H. unfold ratio. split; [apply Rmult_lt_0_compat; auto; apply Rinv_0_lt_compat; lra|].
  apply (Rmult_lt_reg_r (mu + beta)); [lra|]. unfold Rdiv. rewrite Rmult_assoc, Rinv_l by lra. lra.
Qed.
Lemma ratio_mono b b' : 0 < b -> b <= b' -> ratio b <= ratio b'.
Proof.
  intros H H'. unfold ratio. apply (Rmult_le_reg_r ((mu + b) * (mu + b'))); [nra|].
  replace (b / (mu + b) * ((mu + b) * (mu + b'))) with (b * (mu + b')) by (field; lra).
  replace (b' / (mu + b') * ((mu + b) * (mu + b'))) with (b' * (mu + b)) by (field; lra). nra.
Qed.
Lemma ratio_step beta w v : 0 < beta -> (mu + beta) * (mu + beta) * w <= beta * beta * v -> w <= ratio beta ^ 2 * v.
Proof.
  intros Hb H. unfold ratio. apply (Rmult_le_reg_l ((mu + beta) * (mu + beta))); [nra|].
  replace ((mu + beta) * (mu + beta) * ((beta / (mu + beta)) ^ 2 * v)) with (beta * beta * v) by (field; lra). auto.
Qed.
Lemma ratio_chain beta b1 k w w1 v : 0 < b1 -> b1 <= beta -> 0 <= v -> w1 <= ratio beta ^ 2 * v -> 0 <= w1 -> w <= ratio b1 ^ (2 * k) * w1 -> w <= ratio beta ^ (2 * S k) * v.
Proof.
  intros H1 Hb Hv Hw1 P1 Hw. replace (2 * S k)%nat with (2 * k + 2)%nat by lia. rewrite pow_add.
  destruct (ratio_pos b1 H1) as (Q1 & _). destruct (ratio_pos beta ltac:(lra)) as (Q2 & _). pose proof (ratio_mono b1 beta H1 Hb) as Hm.
  assert (Hp : ratio b1 ^ (2 * k) <= ratio beta ^ (2 * k)) by (apply pow_incr; lra).
  assert (0 <= ratio b1 ^ (2 * k)) by (apply pow_le; lra). assert (0 <= ratio beta ^ (2 * k)) by (apply pow_le; lra).
  eapply Rle_trans; [exact Hw|]. rewrite Rmult_assoc. apply Rmult_le_compat; auto.
Qed.

Section Chain.
Variable step : sstate R -> result (sstate R).
Variable Q : sstate R -> Prop.
Hypothesis Hstep : forall s s', inv E fs g s -> Q s -> step s = Ok s' -> inv E fs g s' /\ Q s' /\ progress E fs g s s'.
Lemma near_chain k : forall s s', inv E fs g s -> Q s -> ortho (dev s) -> iterate k step s = Ok s' ->
  inv E fs g s' /\ ortho (dev s') /\ sumsq (dev s') <= ratio (damping s) ^ (2 * k) * sumsq (dev s).
Proof.
  induction k as [|k IH]; intros s s' Hi Hq Ho H.
  - injection H as <-. split; auto. split; auto. simpl pow. lra.
  - simpl in H. apply bind_ok in H. destruct H as (s1 & H1 & H2). destruct (Hstep _ _ Hi Hq H1) as (Hi1 & Hq1 & Hp).
    pose proof (damping_pos E fs g s Hi) as Pd. pose proof (damping_pos E fs g s1 Hi1) as Pd1. pose proof (sumsq_nonneg (dev s)) as P0. pose proof (sumsq_nonneg (dev s1)) as P1.
    destruct Hp as [(Hp & Hx)|(Ea & Ecost & Hopt)].
    + destruct (contract s s1 (damping s) (proj1 Hi) (proj1 Hi1) Pd Hp Ho) as (Ho1 & Hc).
      destruct (IH s1 s' Hi1 Hq1 Ho1 H2) as (I1 & I2 & I3). split; auto. split; auto.
      apply (ratio_chain (damping s) (damping s1) k _ (sumsq (dev s1))); auto; [unfold damping; lra | apply ratio_step; auto].
    + assert (E1 : dev s1 = dev s) by (unfold dev; rewrite Ea; auto).
      destruct (IH s1 s' Hi1 Hq1 ltac:(rewrite E1; auto) H2) as (I1 & I2 & I3). split; auto. split; auto.
      assert (Z0 : sumsq (dev s) = 0) by (apply arrived; auto; [apply Hi | apply (Hopt _ _ _ _ Hz Ez)]).
      rewrite E1, Z0, Rmult_0_r in I3. rewrite Z0, Rmult_0_r. auto.
Qed.
End Chain.

Lemma near_dogleg cfg : dl_quality_min cfg <= 1 -> forall k s s', fresh s -> 0 < s_extra s -> ortho (dev s) -> iterate k (dl_step E cfg cholmod_solve g) s = Ok s' ->
  fresh s' /\ ortho (dev s') /\ sumsq (dev s') <= sumsq (dev s) /\
  forall K, sumsq (dev s) <= (3 ^ K * s_extra s) * (3 ^ K * s_extra s) -> sumsq (dev s') <= ratio (1 / 100000) ^ (2 * (k - K)) * sumsq (dev s).
Proof.
  intros Hq. induction k as [|k IH]; intros s s' Hf Hx Ho H.
  - injection H as <-. split; auto. split; auto. split; [lra|]. intros K _. simpl pow. lra.
  - simpl in H. apply bind_ok in H. destruct H as (s1 & H1 & H2).
    destruct (dl_lin E fs g LP CO Hok Hg Hne Hrd Hws z valz cz rz Hz Ez Hmin cfg s s1 Hq Hf Hx H1) as (Hf1 & Hx1 & Hc1 & Hd1 & Hcase).
    pose proof (dl_ortho cfg s s1 Hf H1) as Od. pose proof (near_length s Hf) as Ls. pose proof (near_length s1 Hf1) as Ls1. pose proof (held_length E fs LP CO _ _ Hz : _ = n) as Lz.
    assert (Ho1 : ortho (dev s1)).
    { assert (Ed : dev s1 = vsub (dev s) (vsub (as_storage (s_assign s1)) (as_storage (s_assign s)))) by (unfold dev; apply sub_via; congruence).
      rewrite Ed. apply ortho_sub; auto; rewrite Hsh; cbn [snd]; [apply dev_length; auto | rewrite vsub_length; congruence]. }
    change (sumsq (dev s1) <= sumsq (dev s)) in Hd1. pose proof (sumsq_nonneg (dev s)) as P0. pose proof (sumsq_nonneg (dev s1)) as P1. pose proof (sumsq_nonneg (dev s')) as P2.
    destruct (IH s1 s' Hf1 Hx1 Ho1 H2) as (I1 & I2 & I3 & I4). split; auto. split; auto. split; [lra|]. intros K HK.
    destruct Hcase as [Hopt|[(Hr1 & Hp)|(Ht & Hr1)]].
    + pose proof (arrived s Hf Ho Hopt) as Z0. rewrite Z0, Rmult_0_r. lra.
    + assert (P3 : 0 < 3 ^ K) by (apply pow_lt; lra).
      assert (HK1 : sumsq (dev s1) <= 3 ^ K * s_extra s1 * (3 ^ K * s_extra s1)).
      { eapply Rle_trans; [exact Hd1|]. eapply Rle_trans; [exact HK|]. assert (3 ^ K * s_extra s <= 3 ^ K * s_extra s1) by (apply Rmult_le_compat_l; lra).
        assert (0 <= 3 ^ K * s_extra s) by (apply Rmult_le_pos; lra). apply Rmult_le_compat; auto. }
      specialize (I4 K HK1).
      destruct (le_lt_dec (S k) K) as [HkK|HkK].
      { replace (S k - K)%nat with 0%nat by lia. simpl pow. lra. }
      assert (Hcon : ortho (dev s1) /\ (mu + 1 / 100000) * (mu + 1 / 100000) * sumsq (dev s1) <= 1 / 100000 * (1 / 100000) * sumsq (dev s)).
      { apply (contract s s1); auto. lra. }
      replace (S k - K)%nat with (S (k - K)) by lia. apply (ratio_chain (1 / 100000) (1 / 100000) (k - K) _ (sumsq (dev s1))); auto; try lra. apply ratio_step; [lra | apply Hcon].
    + destruct K as [|K]; [simpl in HK; change (dist2 z (s_assign s)) with (sumsq (dev s)) in Ht; lra|].
      replace (S k - S K)%nat with (k - K)%nat by lia.
      assert (HK1 : sumsq (dev s1) <= 3 ^ K * s_extra s1 * (3 ^ K * s_extra s1)).
      { rewrite Hr1. simpl pow in HK. replace (3 ^ K * (3 * s_extra s)) with (3 * 3 ^ K * s_extra s) by ring. lra. }
      specialize (I4 K HK1). eapply Rle_trans; [exact I4|]. apply Rmult_le_compat_l; auto. apply pow_le. apply Rlt_le, ratio_pos. lra.
Qed.
End Min.
End Lin.
